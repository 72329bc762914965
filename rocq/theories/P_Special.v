(** Fronts and best candidates with infinities and NaN. *)
From Coq Require Import List QArith Qminmax Arith Bool Lia Lqa Sorted Permutation.
From Verif Require Import M_Base P_Base M_Pareto S_Pareto P_Pareto M_Select S_Select P_Select M_Special S_Special.
Import ListNotations.
Local Open Scope nat_scope.

(** ---- comparisons ---- *)
Lemma xgt_le x y : xgt x y = false <-> x = XNaN \/ y = XNaN \/ xle x y.
Proof.
  destruct x as [a| | |], y as [b| | |]; cbn; try (split; auto; fail); try (split; [discriminate|intros [E|[E|[]]]; discriminate]).
  rewrite Qlt_bool_false. split; [auto|]. intros [E|[E|L]]; [discriminate|discriminate|exact L].
Qed.
Lemma xany_false r : forall p, length r = length p -> xany_gt r p = false <-> nowhere_above r p.
Proof.
  induction r as [|x r IH]; intros [|y p] L; cbn in *; try lia.
  - split; auto. intros _ [|k] u v H; discriminate.
  - rewrite orb_false_iff, xgt_le, IH by lia. split.
    + intros [H1 H2] [|k] u v Hu Hv; cbn in *; [injection Hu as <-; injection Hv as <-; exact H1|eapply H2; eauto].
    + intro H. split; [apply (H 0 x y); reflexivity|]. intros k u v Hu Hv. apply (H (S k) u v); auto.
Qed.
(** ---- the loop ---- *)
Lemma xloop_map {A B} (f : A -> B) fuel : forall l V nx, xpareto_loop fuel (map f l) V nx = option_map (map f) (xpareto_loop fuel l V nx).
Proof.
  induction fuel as [|fuel IH]; intros l V nx; [reflexivity|]. cbn [xpareto_loop]. destruct (nth_error V nx) as [p|]; [|reflexivity]. rewrite mask_filter_fmap. apply IH.
Qed.
Lemma mask_filter_In {A} (x : A) : forall m l, In x (mask_filter m l) -> In x l.
Proof. induction m as [|b m IH]; intros [|y l] H; cbn in *; try contradiction. destruct b; [destruct H as [H|H]; auto|auto]. Qed.
Lemma xloop_In {A} (x : A) fuel : forall l V nx out, xpareto_loop fuel l V nx = Some out -> In x out -> In x l.
Proof.
  induction fuel as [|fuel IH]; intros l V nx out H I; [discriminate|]. cbn [xpareto_loop] in H. destruct (nth_error V nx) as [p|]; [|injection H as <-; exact I]. eapply mask_filter_In, IH; eauto.
Qed.
(** ---- infinities ---- *)
Definition emb (B : Q) (x : xval) : Q := match x with XNum q => q | XPInf => B | XNInf => (- B)%Q | XNaN => 0 end.
Definition inside (B : Q) (x : xval) : Prop := match x with XNum q => (- B < q < B)%Q | XNaN => False | _ => True end.
Lemma emb_le B x y : (0 < B)%Q -> inside B x -> inside B y -> (emb B x <= emb B y)%Q <-> xle x y.
Proof. intro P. destruct x, y; cbn; intros; try tauto; split; intros; try tauto; try lra. Qed.
Lemma emb_gt B x y : (0 < B)%Q -> inside B x -> inside B y -> Qlt_bool (emb B y) (emb B x) = xgt x y.
Proof.
  intros P Hx Hy. assert (E := emb_le B x y P Hx Hy). destruct (xgt x y) eqn:G.
  - destruct (Qlt_bool (emb B y) (emb B x)) eqn:F; [reflexivity|]. apply Qlt_bool_false in F. apply E in F. assert (K : xgt x y = false) by (apply xgt_le; auto). congruence.
  - apply Qlt_bool_false, E. apply xgt_le in G. destruct G as [->|[->|G]]; [destruct Hx|destruct Hy|exact G].
Qed.
Lemma emb_any B r : forall p, (0 < B)%Q -> Forall (inside B) r -> Forall (inside B) p -> any_gt (map (emb B) r) (map (emb B) p) = xany_gt r p.
Proof.
  induction r as [|x r IH]; intros [|y p] P Hr Hp; cbn; auto. inversion Hr; inversion Hp; subst. now rewrite emb_gt, IH.
Qed.
Lemma emb_loop B fuel : forall l V nx, (0 < B)%Q -> Forall (Forall (inside B)) V -> pareto_loop fuel l (map (map (emb B)) V) nx = xpareto_loop fuel l V nx.
Proof.
  induction fuel as [|fuel IH]; intros l V nx P HV; [reflexivity|]. cbn [pareto_loop xpareto_loop]. rewrite nth_error_map. destruct (nth_error V nx) as [p|] eqn:E; [|reflexivity]. cbn [option_map].
  assert (M : map (fun r => any_gt r (map (emb B) p)) (map (map (emb B)) V) = map (fun r => xany_gt r p) V). { rewrite map_map. apply map_ext_in. intros r Hr. rewrite Forall_forall in HV. apply emb_any; auto. apply HV. eapply nth_error_In; eauto. }
  rewrite M, mask_filter_fmap. apply IH; auto. rewrite Forall_forall in *. intros r Hr. apply HV. now apply mask_filter_In in Hr.
Qed.
Fixpoint bound_row (r : list xval) : Q := match r with [] => 1 | x :: r' => (match x with XNum q => Qmax q (- q) + 1 | _ => 0 end) + bound_row r' end.
Lemma bound_row_pos r : (1 <= bound_row r)%Q.
Proof. induction r as [|x r IH]; cbn; [lra|]. destruct x as [q| | |]; try lra. destruct (Q.max_spec q (- q)) as [[A ->]|[A ->]]; lra. Qed.
Lemma bound_row_in r : ~ In XNaN r -> Forall (inside (bound_row r)) r.
Proof.
  intro N. apply Forall_forall. intros x I. induction r as [|y r IH]; [destruct I|]. assert (P := bound_row_pos r). destruct I as [->|I].
  - destruct x as [q| | |]; cbn; auto; [destruct (Q.max_spec q (- q)) as [[A ->]|[A ->]]; lra|apply N; now left].
  - specialize (IH (fun k => N (or_intror k)) I). destruct x as [q| | |]; cbn in *; auto. assert (0 <= match y with XNum a => Qmax a (- a) + 1 | _ => 0 end)%Q by (destruct y as [a| | |]; try lra; destruct (Q.max_spec a (- a)) as [[A ->]|[A ->]]; lra). lra.
Qed.
Lemma bound_all V : Forall complete V -> exists B, (0 < B)%Q /\ Forall (Forall (inside B)) V.
Proof.
  intro H. exists (bound_row (concat V)). split; [assert (P := bound_row_pos (concat V)); lra|]. rewrite Forall_forall in *. intros r Hr. assert (N : ~ In XNaN (concat V)) by (intro I; apply in_concat in I; destruct I as (r' & Hr' & I); exact (H r' Hr' I)).
  assert (K := bound_row_in _ N). rewrite Forall_forall in *. intros x Hx. apply K. apply in_concat. eauto.
Qed.
Lemma emb_below B r p : (0 < B)%Q -> Forall (inside B) r -> Forall (inside B) p -> weakly_below (map (emb B) r) (map (emb B) p) <-> xbelow r p.
Proof.
  intro P. revert p. induction r as [|x r IH]; intros [|y p] Hr Hp; split; intro H; inversion H; subst; try constructor; inversion Hr; inversion Hp; subst; try (apply (emb_le B); assumption); try (apply IH; assumption).
Qed.
Lemma emb_front B k V i : (0 < B)%Q -> xrect k V -> Forall (Forall (inside B)) V -> on_front (map (map (emb B)) V) i <-> xfront V i.
Proof.
  intros P Rk HV. unfold on_front, xfront. assert (HI : forall j p, nth_error V j = Some p -> Forall (inside B) p /\ length p = k) by (intros j p E; apply nth_error_In in E; split; [exact (proj1 (Forall_forall _ _) HV p E)|exact (proj1 (Forall_forall _ _) Rk p E)]).
  assert (NE : forall j p', nth_error (map (map (emb B)) V) j = Some p' <-> exists p, nth_error V j = Some p /\ p' = map (emb B) p). { intros j p'. rewrite nth_error_map. destruct (nth_error V j) as [p|]; cbn; split; [intro E; injection E as <-; eauto|intros (q & E & ->); now injection E as <-|discriminate|intros (q & E & _); discriminate]. }
  split.
  - intros (r' & E & D & Q). apply NE in E. destruct E as (r & E & ->). destruct (HI i r E) as [Ir Lr]. exists r. split; [exact E|]. split; [intro N; rewrite Forall_forall in Ir; exact (Ir _ N)|]. split.
    + intros j p Ep Hb. destruct (HI j p Ep) as [Ip Lp]. apply (emb_below B); auto. destruct (weakly_below_dec (map (emb B) p) (map (emb B) r)) as [Y|Y]; [rewrite !map_length; lia|exact Y|]. exfalso. apply (D j (map (emb B) p)); [apply NE; eauto|]. split; [now apply emb_below|]. apply better_not_below; [rewrite !map_length; lia|exact Y].
    + intros j p Hj Ep [H1 H2]. destruct (HI j p Ep) as [Ip Lp]. apply (Q j (map (emb B) p) Hj); [apply NE; eauto|]. apply weakly_below_antisym; apply emb_below; auto.
  - intros (r & E & C & D & Q). destruct (HI i r E) as [Ir Lr]. exists (map (emb B) r). split; [apply NE; eauto|]. split.
    + intros j p' Ep [H1 H2]. apply NE in Ep. destruct Ep as (p & Ep & ->). destruct (HI j p Ep) as [Ip Lp]. apply better_not_below in H2; [|rewrite !map_length; lia]. apply H2. apply emb_below; auto. apply (D j p Ep). apply (emb_below B); auto.
    + intros j p' Hj Ep Heq. apply NE in Ep. destruct Ep as (p & Ep & ->). destruct (HI j p Ep) as [Ip Lp]. apply (Q j p Hj Ep). split; apply (emb_below B); auto; apply Forall2_Qeq_below; auto. now apply Forall2_Qeq_sym.
Qed.
Lemma xpareto_correct k V fuel : xrect k V -> Forall complete V -> length V < fuel -> exists l, get_pareto_x fuel V = Some l /\ StronglySorted lt l /\ forall i, In i l <-> xfront V i.
Proof.
  intros Rk HC HF. destruct (bound_all V HC) as (B & P & HB). destruct (get_pareto_correct k (map (map (emb B)) V) fuel) as (l & E & S & H).
  - unfold rect, xrect in *. apply Forall_forall. intros r' I. apply in_map_iff in I. destruct I as (r & <- & I). rewrite map_length. rewrite Forall_forall in Rk. auto.
  - now rewrite map_length.
  - exists l. unfold get_pareto in E. rewrite map_length, emb_loop in E by auto. split; [exact E|]. split; [exact S|]. intro i. rewrite H. now apply (emb_front B k).
Qed.
(** ---- a row of NaN in front ---- *)
Lemma nan_never r : forall p, all_nan p -> xany_gt r p = false.
Proof. induction r as [|x r IH]; intros [|y p] H; cbn; auto. inversion H; subst. destruct x; cbn; auto. Qed.
Lemma nan_not_gt r : forall p, all_nan r -> xany_gt r p = false.
Proof. induction r as [|x r IH]; intros [|y p] H; cbn; auto. inversion H; subst. cbn. auto. Qed.
Lemma mask_none {A B} (g : A -> bool) V : forall l : list B, (forall r, In r V -> g r = false) -> mask_filter (map g V) l = [].
Proof. induction V as [|r V IH]; intros [|x l] H; cbn; auto. rewrite (H r) by now left. apply IH. intros s Hs. apply H. now right. Qed.
Lemma nan_first p V fuel : all_nan p -> 2 <= fuel -> get_pareto_x fuel (p :: V) = Some [0].
Proof.
  intros H F. destruct fuel as [|[|fuel]]; try lia. unfold get_pareto_x. cbn [length seq xpareto_loop nth_error map set_nth mask_filter firstn count_true].
  rewrite !mask_none by (intros r _; now apply nan_never). reflexivity.
Qed.
(** ---- rows that disappear ---- *)
Lemma mask_out {A} (g : A -> bool) V j r : forall a, nth_error V j = Some r -> g r = false -> ~ In (a + j) (mask_filter (map g V) (seq a (length V))).
Proof.
  revert j. induction V as [|s V IH]; intros [|j] a E G; cbn in E; try discriminate.
  - injection E as ->. cbn. rewrite G. intro I. apply mask_filter_In in I. apply in_seq in I. lia.
  - cbn [length seq map mask_filter]. specialize (IH j (S a) E G). replace (S a + j) with (a + S j) in IH by lia. destruct (g s); [|exact IH]. intros [X|X]; [lia|now apply IH].
Qed.
Lemma row_lost p V j r k fuel l : xrect k (p :: V) -> nth_error V j = Some r -> nowhere_above r p -> get_pareto_x fuel (p :: V) = Some l -> ~ In (S j) l.
Proof.
  intros Rk E N H I. unfold get_pareto_x in H. destruct fuel as [|fuel]; [discriminate|]. cbn [length seq xpareto_loop nth_error map set_nth mask_filter] in H. apply (xloop_In (S j)) in H; [|exact I].
  destruct H as [H|H]; [discriminate|]. apply (mask_out (fun r => xany_gt r p) V j r 1 E) in H; [exact H|]. inversion Rk as [|? ? Lp RV]; subst. apply xany_false; [|exact N]. rewrite Forall_forall in RV. apply RV. eapply nth_error_In; eauto.
Qed.
(** ---- rows of NaN behind a complete one ---- *)
Definition has_nan (r : list xval) : bool := existsb is_nan r.
Lemma has_nan_false r : has_nan r = false <-> complete r.
Proof.
  unfold has_nan, complete. split.
  - intros H I. assert (K : existsb is_nan r = true) by (apply existsb_exists; exists XNaN; auto). congruence.
  - intro H. apply not_true_is_false. intro K. apply existsb_exists in K. destruct K as ([| | |] & I & K); try discriminate. auto.
Qed.
Definition good (r : list xval) : bool := negb (has_nan r).
Lemma mask_twice {A B} (g c : A -> bool) V : forall l : list B, (forall r, In r V -> c r = false -> g r = false) -> mask_filter (map g V) l = mask_filter (map g (filter c V)) (mask_filter (map c V) l).
Proof.
  induction V as [|r V IH]; intros l H; [reflexivity|]. destruct l as [|x l]; cbn; [destruct (map g (if c r then r :: filter c V else filter c V)); reflexivity|].
  rewrite (IH l) by (intros s Hs; apply H; now right). destruct (c r) eqn:E; cbn; [reflexivity|]. rewrite (H r) by (auto; now left). reflexivity.
Qed.
Lemma first_step {A} p V fuel (a : A) l : (forall r, In r V -> good r = false -> xany_gt r p = false) ->
  xpareto_loop (S fuel) (a :: l) (p :: V) 0 = xpareto_loop (S fuel) (a :: mask_filter (map good V) l) (p :: filter good V) 0.
Proof.
  intro H. cbn [xpareto_loop nth_error map set_nth mask_filter firstn]. f_equal; f_equal.
  - now apply mask_twice.
  - rewrite (mask_twice (fun r => xany_gt r p) good V V H). now rewrite mask_filter_map.
Qed.
Lemma labels_ok V : forall a, let L := mask_filter (map good V) (seq a (length V)) in
  Forall2 (fun i r => a <= i /\ nth_error V (i - a) = Some r /\ good r = true) L (filter good V) /\ StronglySorted lt L /\ (forall i r, nth_error V i = Some r -> good r = true -> In (a + i) L).
Proof.
  induction V as [|s V IH]; intro a; cbn [length seq map mask_filter filter]; [split; [constructor|split; [constructor|intros [|i] r E; discriminate]]|].
  destruct (IH (S a)) as (F & S & C). set (L := mask_filter (map good V) (seq (Datatypes.S a) (length V))) in *.
  assert (F' : Forall2 (fun i r => a <= i /\ nth_error (s :: V) (i - a) = Some r /\ good r = true) L (filter good V)). { clear -F. induction F as [|i r L W (A & B & G) F IH]; constructor; auto. split; [lia|]. split; [|exact G]. replace (i - a) with (Datatypes.S (i - Datatypes.S a)) by lia. exact B. }
  destruct (good s) eqn:G.
  - split; [constructor; auto; split; [lia|]; rewrite Nat.sub_diag; auto|]. split.
    + constructor; [exact S|]. apply Forall_forall. intros i Hi. apply mask_filter_In, in_seq in Hi. lia.
    + intros [|i] r E Gr; cbn in E; [left; lia|right]. replace (a + Datatypes.S i) with (Datatypes.S a + i) by lia. eapply C; eauto.
  - split; [exact F'|]. split; [exact S|]. intros [|i] r E Gr; cbn in E; [congruence|]. replace (a + Datatypes.S i) with (Datatypes.S a + i) by lia. eapply C; eauto.
Qed.
Lemma below_complete k r p : length r = k -> 1 <= k -> xbelow r p -> all_nan p -> False.
Proof. intros L K B A. destruct B as [|x y r p H B]; [cbn in L; lia|]. inversion A; subst. destruct x; exact H. Qed.
Lemma nan_later k p V fuel : 1 <= k -> xrect k (p :: V) -> complete p -> (forall r, In r V -> complete r \/ all_nan r) -> length V + 1 < fuel ->
  exists l, get_pareto_x fuel (p :: V) = Some l /\ StronglySorted lt l /\ forall i, In i l <-> xfront (p :: V) i.
Proof.
  intros Hk Rk Cp HV HF. destruct fuel as [|fuel]; [lia|]. set (W := filter good V). assert (Gp : good p = true) by (unfold good; now rewrite (proj2 (has_nan_false p) Cp)).
  assert (RW : xrect k (p :: W)). { unfold xrect in *. inversion Rk as [|? ? A B]; subst. constructor; [reflexivity|]. rewrite Forall_forall in *. intros r Hr. apply filter_In in Hr. apply B, Hr. }
  assert (CW : Forall complete (p :: W)). { constructor; [exact Cp|]. apply Forall_forall. intros r Hr. apply filter_In in Hr. apply has_nan_false. unfold good in Hr. destruct (has_nan r); [destruct Hr; discriminate|reflexivity]. }
  assert (LW : length W <= length V) by (unfold W; clear; induction V as [|s V IH]; cbn; [lia|destruct (good s); cbn; lia]).
  destruct (xpareto_correct k (p :: W) (S fuel) RW CW ltac:(cbn; lia)) as (l & E & S & H). destruct (labels_ok V 1) as (F & SL & C). set (L := mask_filter (map good V) (seq 1 (length V))) in *.
  assert (F0 : Forall2 (fun i r => nth_error (p :: V) i = Some r /\ good r = true) (0 :: L) (p :: W)). { constructor; [auto|]. unfold W. clear -F. induction F as [|i r L W (A & B & G) F IH]; constructor; auto. split; [|exact G]. destruct i; [lia|]. cbn. rewrite Nat.sub_succ, Nat.sub_0_r in B. exact B. }
  assert (S0 : StronglySorted lt (0 :: L)). { constructor; [exact SL|]. apply Forall_forall. intros i Hi. apply mask_filter_In, in_seq in Hi. lia. }
  assert (C0 : forall i r, nth_error (p :: V) i = Some r -> good r = true -> In i (0 :: L)). { intros [|i] r Ei Gr; [now left|right]. cbn in Ei. exact (C i r Ei Gr). }
  clear F SL C. set (Lb := 0 :: L) in *. set (f := fun i => nth i Lb 0). assert (LL : length Lb = length (p :: W)) by (clear -F0; induction F0; cbn; auto).
  assert (EL : Lb = map f (seq 0 (length (p :: W)))). { rewrite <- LL. apply nth_ext with (d := 0) (d' := f 0); [now rewrite map_length, seq_length|]. intros n Hn. rewrite map_nth, seq_nth by exact Hn. reflexivity. }
  assert (FN : forall i r, nth_error (p :: W) i = Some r -> nth_error (p :: V) (f i) = Some r /\ good r = true). { intros i r Ei. unfold f. clear -F0 Ei. revert i Ei. induction F0 as [|a b la lb [A G] F0 IH]; intros [|i] Ei; cbn in *; try discriminate; [injection Ei as <-; auto|auto]. }
  assert (FM : forall i j, i < j < length Lb -> f i < f j). { intros i j Hij. unfold f. clear -S0 Hij. revert i j Hij. induction S0 as [|a la S0 IH Fa]; intros i j Hij; cbn in *; [lia|]. destruct j as [|j]; [lia|]. destruct i as [|i]; [rewrite Forall_forall in Fa; apply Fa, nth_In; lia|apply IH; lia]. }
  exists (map f l). split.
  { unfold get_pareto_x. cbn [length seq]. rewrite first_step; [|intros r Hr G; destruct (HV r Hr) as [K|K]; [apply has_nan_false in K; unfold good in G; rewrite K in G; discriminate|now apply nan_not_gt]].
    fold W. change (0 :: mask_filter (map good V) (seq 1 (length V))) with Lb. rewrite EL, xloop_map. unfold get_pareto_x in E. rewrite E. reflexivity. }
  assert (RL : forall i, In i l -> i < length Lb). { intros i Hi. apply H in Hi. destruct Hi as (r & Ei & _). rewrite LL. apply nth_error_Some. congruence. }
  split.
  { clear -S FM RL. induction S as [|a l S IH Fa]; cbn; constructor; [apply IH; intros; apply RL; now right|]. apply Forall_forall. intros y Hy. apply in_map_iff in Hy. destruct Hy as (z & <- & Hz). rewrite Forall_forall in Fa. apply FM. split; [now apply Fa|apply RL; now right]. }
  assert (NN : forall r q, length r = k -> In q (p :: V) -> xbelow r q -> good q = true). { intros r q Lr Iq Hb. destruct Iq as [<-|Iq]; [exact Gp|]. destruct (HV q Iq) as [K|K]; [apply has_nan_false in K; unfold good; now rewrite K|exfalso; eapply below_complete; eauto]. }
  intro i. rewrite in_map_iff. split.
  - intros (n & <- & Hn). assert (HL := RL n Hn). apply H in Hn. destruct Hn as (r & Er & Cr & D & Q). assert (Lr : length r = k) by (unfold xrect in RW; rewrite Forall_forall in RW; apply RW; eapply nth_error_In; eauto). exists r. destruct (FN n r Er) as [Ev Gr]. split; [exact Ev|]. split; [exact Cr|]. split.
    + intros j q Ej Hb. assert (Gq := NN r q Lr (nth_error_In _ _ Ej) Hb). assert (Ij := C0 j q Ej Gq). apply In_nth with (d := 0) in Ij. destruct Ij as (m & Hm & Em). assert (Eq : nth_error (p :: W) m = Some q). { rewrite LL in Hm. destruct (nth_error (p :: W) m) as [q'|] eqn:Eq; [|apply nth_error_None in Eq; lia]. destruct (FN m q' Eq) as [E' _]. unfold f in E'. rewrite Em in E'. congruence. } exact (D m q Eq Hb).
    + intros j q Hj Ej [Hb1 Hb2]. assert (Gq := NN r q Lr (nth_error_In _ _ Ej) Hb1). assert (Ij := C0 j q Ej Gq). apply In_nth with (d := 0) in Ij. destruct Ij as (m & Hm & Em). assert (Eq : nth_error (p :: W) m = Some q). { rewrite LL in Hm. destruct (nth_error (p :: W) m) as [q'|] eqn:Eq; [|apply nth_error_None in Eq; lia]. destruct (FN m q' Eq) as [E' _]. unfold f in E'. rewrite Em in E'. congruence. }
      apply (Q m q); [|exact Eq|auto]. destruct (Nat.lt_ge_cases m n) as [X|X]; [exact X|exfalso]. destruct (Nat.eq_dec m n) as [->|Y]; [unfold f in Hj; lia|]. assert (Z := FM n m ltac:(lia)). unfold f in Z, Hj. lia.
  - intros (r & Ei & Cr & D & Q). assert (Gr : good r = true) by (unfold good; now rewrite (proj2 (has_nan_false r) Cr)). assert (Ii := C0 i r Ei Gr). apply In_nth with (d := 0) in Ii. destruct Ii as (n & Hn & En). exists n. split; [exact En|]. apply H.
    assert (Er : nth_error (p :: W) n = Some r). { rewrite LL in Hn. destruct (nth_error (p :: W) n) as [q'|] eqn:Eq; [|apply nth_error_None in Eq; lia]. destruct (FN n q' Eq) as [E' _]. unfold f in E'. rewrite En in E'. congruence. }
    exists r. split; [exact Er|]. split; [exact Cr|]. split.
    + intros j q Ej. destruct (FN j q Ej) as [Ev _]. exact (D _ q Ev).
    + intros j q Hj Ej. destruct (FN j q Ej) as [Ev _]. apply (Q (f j) q); [|exact Ev]. rewrite <- En. apply (FM j n). lia.
Qed.
(** ---- best and worst ---- *)
Lemma xgt_asym a b : xgt a b = true -> xgt b a = false.
Proof. destruct a, b; cbn; auto; try discriminate. intro H. apply Qlt_bool_false. apply Qlt_le_weak. apply Qnot_le_lt. intro K. apply Qlt_bool_false in K. congruence. Qed.
Lemma xle_trans a b c : xle a b -> xle b c -> xle a c.
Proof. destruct a, b, c; cbn; try tauto. apply Qle_trans. Qed.
Lemma xgt_false_le a b : is_nan a = false -> is_nan b = false -> xgt a b = false <-> xle a b.
Proof. intros A B. rewrite xgt_le. split; [|auto]. intros [->|[->|H]]; [discriminate|discriminate|exact H]. Qed.
Lemma max_ok : order_ok max_ltb.
Proof.
  unfold max_ltb. split.
  - intros a b c H1 H2. destruct (is_nan c) eqn:Nc; [reflexivity|]. cbn in *. destruct (is_nan b) eqn:Nb; [discriminate|]. cbn in *. destruct (is_nan a) eqn:Na; [discriminate|]. cbn in *. apply xgt_false_le; auto. apply xgt_false_le in H1, H2; auto. eapply xle_trans; eauto.
  - intros a b H. destruct (is_nan a) eqn:Na; [discriminate|]. cbn in *. destruct (is_nan b) eqn:Nb; [reflexivity|]. cbn in *. now apply xgt_asym.
Qed.
Lemma min_ok : order_ok min_ltb.
Proof.
  unfold min_ltb. split.
  - intros a b c H1 H2. destruct (is_nan c) eqn:Nc; [reflexivity|]. cbn in *. destruct (is_nan b) eqn:Nb; [discriminate|]. cbn in *. destruct (is_nan a) eqn:Na; [discriminate|]. cbn in *. apply xgt_false_le; auto. apply xgt_false_le in H1, H2; auto. eapply xle_trans; eauto.
  - intros a b H. destruct (is_nan a) eqn:Na; [discriminate|]. cbn in *. destruct (is_nan b) eqn:Nb; [reflexivity|]. cbn in *. now apply xgt_asym.
Qed.
Lemma x_answers enum mu N : (forall k, enumerates (enum k)) -> N <= length mu -> answers (best_greedy_x enum mu) N /\ answers (worst_greedy_x enum mu) N.
Proof.
  intros He Hl. split; [exact (score_answers max_ltb enum (fun _ => getitem mu) N max_ok He (fun _ i Hi => getitem_total mu i (Nat.lt_le_trans _ _ _ Hi Hl)))|].
  exact (score_answers min_ltb enum (fun _ => getitem mu) N min_ok He (fun _ i Hi => getitem_total mu i (Nat.lt_le_trans _ _ _ Hi Hl))).
Qed.
Lemma getitem_nth {A} (l : list A) i x : getitem l i = Ok x <-> nth_error l i = Some x.
Proof. unfold getitem. destruct (nth_error l i) as [y|]; split; intro H; try discriminate; now injection H as <-. Qed.
Lemma x_best enum mu k idx P i : (forall k, enumerates (enum k)) -> best_greedy_x enum mu k idx P = Ok i ->
  exists m, nth_error mu i = Some m /\ In i idx /\ ((exists j, In j idx /\ nth_error mu j = Some XNaN) -> m = XNaN) /\ ((forall j, In j idx -> nth_error mu j <> Some XNaN) -> forall j v, In j idx -> nth_error mu j = Some v -> xle v m).
Proof.
  intros He H. apply (pick_extreme_spec max_ltb) in H; [|exact max_ok]. destruct H as (I & m & Em & M). assert (PE := He k idx). exists m. split; [now apply getitem_nth|]. split; [eapply Permutation_in; eauto|].
  assert (IN : forall j, In j idx -> In j (enum k idx)) by (intros j Hj; eapply Permutation_in; [apply Permutation_sym; exact PE|exact Hj]). split.
  - intros (j & Hj & Ej). specialize (M j XNaN (IN j Hj) (proj2 (getitem_nth _ _ _) Ej)). unfold max_ltb in M. cbn in M. destruct m; try discriminate. reflexivity.
  - intros NN j v Hj Ej. assert (Nv : is_nan v = false) by (destruct v; auto; exfalso; exact (NN j Hj Ej)). assert (Nm : is_nan m = false). { destruct m; auto. exfalso. apply (NN i); [eapply Permutation_in; eauto|now apply getitem_nth]. }
    specialize (M j v (IN j Hj) (proj2 (getitem_nth _ _ _) Ej)). unfold max_ltb in M. rewrite Nm, Nv in M. cbn in M. now apply xgt_false_le.
Qed.
Lemma x_worst enum mu k idx P i : (forall k, enumerates (enum k)) -> worst_greedy_x enum mu k idx P = Ok i ->
  exists m, nth_error mu i = Some m /\ In i idx /\ ((exists j, In j idx /\ nth_error mu j = Some XNaN) -> m = XNaN) /\ ((forall j, In j idx -> nth_error mu j <> Some XNaN) -> forall j v, In j idx -> nth_error mu j = Some v -> xle m v).
Proof.
  intros He H. apply (pick_extreme_spec min_ltb) in H; [|exact min_ok]. destruct H as (I & m & Em & M). assert (PE := He k idx). exists m. split; [now apply getitem_nth|]. split; [eapply Permutation_in; eauto|].
  assert (IN : forall j, In j idx -> In j (enum k idx)) by (intros j Hj; eapply Permutation_in; [apply Permutation_sym; exact PE|exact Hj]). split.
  - intros (j & Hj & Ej). specialize (M j XNaN (IN j Hj) (proj2 (getitem_nth _ _ _) Ej)). unfold min_ltb in M. cbn in M. destruct m; try discriminate. reflexivity.
  - intros NN j v Hj Ej. assert (Nv : is_nan v = false) by (destruct v; auto; exfalso; exact (NN j Hj Ej)). assert (Nm : is_nan m = false). { destruct m; auto. exfalso. apply (NN i); [eapply Permutation_in; eauto|now apply getitem_nth]. }
    specialize (M j v (IN j Hj) (proj2 (getitem_nth _ _ _) Ej)). unfold min_ltb in M. rewrite Nm, Nv in M. cbn in M. now apply xgt_false_le.
Qed.
Lemma best_is_best enum mu k idx P i : (forall k, enumerates (enum k)) -> best_greedy_x enum mu k idx P = Ok i -> (forall j, In j idx -> nth_error mu j <> Some XNaN) ->
  exists m, nth_error mu i = Some m /\ In i idx /\ forall j v, In j idx -> nth_error mu j = Some v -> xle v m.
Proof. intros He H N. destruct (x_best enum mu k idx P i He H) as (m & E & I & _ & M). exists m. split; [exact E|]. split; [exact I|]. exact (M N). Qed.
Lemma worst_is_worst enum mu k idx P i : (forall k, enumerates (enum k)) -> worst_greedy_x enum mu k idx P = Ok i -> (forall j, In j idx -> nth_error mu j <> Some XNaN) ->
  exists m, nth_error mu i = Some m /\ In i idx /\ forall j v, In j idx -> nth_error mu j = Some v -> xle m v.
Proof. intros He H N. destruct (x_worst enum mu k idx P i He H) as (m & E & I & _ & M). exists m. split; [exact E|]. split; [exact I|]. exact (M N). Qed.
Lemma nan_taken enum mu k idx P i j : (forall k, enumerates (enum k)) -> best_greedy_x enum mu k idx P = Ok i \/ worst_greedy_x enum mu k idx P = Ok i -> In j idx -> nth_error mu j = Some XNaN -> nth_error mu i = Some XNaN.
Proof.
  intros He [H|H] Hj Ej; [destruct (x_best enum mu k idx P i He H) as (m & E & _ & N & _)|destruct (x_worst enum mu k idx P i He H) as (m & E & _ & N & _)]; rewrite E; f_equal; apply N; eauto.
Qed.
