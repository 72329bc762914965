(** A continuous function on a box has a maximum: grid search with finer and finer grids. *)
From Coq Require Import ConstructiveEpsilon.
From Coquelicot Require Import Coquelicot.
From Coq Require Import Reals Lra Lia List.
Local Open Scope R_scope.

(** ---- subsequences ---- *)
Definition grows (phi : nat -> nat) : Prop := forall k, (phi k < phi (S k))%nat.
Lemma grows_id : grows (fun k => k).
Proof. intro k. lia. Qed.
Lemma grows_lt phi : grows phi -> forall a b, (a < b)%nat -> (phi a < phi b)%nat.
Proof. intros G a b H. induction H; [apply G|]. eapply Nat.lt_trans; [exact IHle|apply G]. Qed.
Lemma grows_ge phi : grows phi -> forall k, (k <= phi k)%nat.
Proof. intros G. induction k; [lia|]. specialize (G k). lia. Qed.
Lemma grows_comp phi psi : grows phi -> grows psi -> grows (fun k => phi (psi k)).
Proof. intros A B k. apply grows_lt; auto. Qed.
Lemma lim_sub (u : nat -> R) (l : Rbar) phi : grows phi -> is_lim_seq u l -> is_lim_seq (fun k => u (phi k)) l.
Proof.
  intros G H. apply (is_lim_seq_subseq u l phi); auto. apply eventually_subseq. exact G.
Qed.
Section Cluster.
Variables (u : nat -> R) (l : R).
Hypothesis C : ValAdh u l.
Lemma near N k : exists p, (N < p)%nat /\ Rabs (u p - l) < / INR (S k).
Proof.
  assert (H : 0 < / INR (S k)) by (apply Rinv_0_lt_compat, lt_0_INR; lia). destruct (C (disc l (mkposreal _ H)) (S N)) as [p [Hp D]].
  - exists (mkposreal _ H). intros x Hx. exact Hx.
  - exists p. split; [lia|]. exact D.
Qed.
Definition near_dec N k p : {(N < p)%nat /\ Rabs (u p - l) < / INR (S k)} + {~ ((N < p)%nat /\ Rabs (u p - l) < / INR (S k))}.
Proof. destruct (lt_dec N p); [|right; tauto]. destruct (Rlt_dec (Rabs (u p - l)) (/ INR (S k))); [left|right]; tauto. Defined.
Definition next N k : nat := proj1_sig (constructive_indefinite_ground_description_nat _ (near_dec N k) (near N k)).
Lemma next_spec N k : (N < next N k)%nat /\ Rabs (u (next N k) - l) < / INR (S k).
Proof. unfold next. destruct constructive_indefinite_ground_description_nat as [p Hp]. exact Hp. Qed.
Fixpoint pick (k : nat) : nat := match k with O => next O O | S k' => next (pick k') k end.
Lemma pick_grows : grows pick.
Proof. intro k. cbn [pick]. apply next_spec. Qed.
Lemma pick_near k : Rabs (u (pick k) - l) < / INR (S k).
Proof. destruct k; cbn [pick]; apply next_spec. Qed.
Lemma pick_lim : is_lim_seq (fun k => u (pick k)) l.
Proof.
  apply is_lim_seq_Reals. intros eps He. destruct (archimed_cor1 eps He) as [N [HN HN0]]. exists N. intros k Hk. unfold R_dist. eapply Rlt_trans; [apply pick_near|].
  eapply Rle_lt_trans; [|exact HN]. apply Rinv_le_contravar; [apply lt_0_INR; lia|]. apply le_INR. lia.
Qed.
End Cluster.
Lemma bw_one (u : nat -> R) M : (forall k, - M <= u k <= M) -> exists phi (l : R), grows phi /\ is_lim_seq (fun k => u (phi k)) l.
Proof.
  intro H. destruct (Bolzano_Weierstrass u (fun x => - M <= x <= M) (compact_P3 (- M) M) H) as [l C]. exists (pick u l C), l. split; [apply pick_grows|apply pick_lim].
Qed.
Lemma bw_all n (x : nat -> nat -> R) M : (forall k i, (i < n)%nat -> - M <= x k i <= M) ->
  exists phi (l : nat -> R), grows phi /\ forall i, (i < n)%nat -> is_lim_seq (fun k => x (phi k) i) (l i).
Proof.
  induction n as [|n IH]; intro H.
  - exists (fun k => k), (fun _ => 0). split; [apply grows_id|]. intros i Hi. lia.
  - destruct IH as [phi [l [G L]]]; [intros k i Hi; apply H; lia|]. destruct (bw_one (fun k => x (phi k) n) M) as [psi [a [G2 A]]]; [intro k; apply H; lia|].
    exists (fun k => phi (psi k)), (fun i => if Nat.eqb i n then a else l i). split; [now apply grows_comp|]. intros i Hi. destruct (Nat.eqb_spec i n) as [-> |N]; [exact A|].
    apply (lim_sub (fun k => x (phi k) i) (l i) psi G2). apply L. lia.
Qed.

(** ---- grids ---- *)
Definition ticks (M : R) (k : nat) : list R := map (fun i => - M + INR i * / INR (S k)) (seq 0 (S (Z.to_nat (up (2 * M * INR (S k)))))).
Definition at_ (c : list R) : nat -> R := fun i => nth i c 0.
Fixpoint grid (M : R) (n k : nat) : list (list R) := match n with O => nil :: nil | S n' => flat_map (fun c => map (fun t => t :: c) (ticks M k)) (grid M n' k) end.
Lemma grid_len M n k c : In c (grid M n k) -> length c = n.
Proof.
  revert c. induction n as [|n IH]; cbn [grid]; intros c H; [destruct H as [<- |[]]; reflexivity|]. apply in_flat_map in H. destruct H as [d [Hd Hc]]. apply in_map_iff in Hc. destruct Hc as [t [<- _]]. cbn. now rewrite (IH d).
Qed.
Lemma ticks_ne M k : exists t, In t (ticks M k).
Proof. exists (- M + INR 0 * / INR (S k)). unfold ticks. apply (in_map (fun i => - M + INR i * / INR (S k))), in_seq. lia. Qed.
Lemma grid_ne M n k : grid M n k <> nil.
Proof.
  assert (E : exists c, In c (grid M n k)).
  { induction n as [|n IH]; cbn [grid]; [exists nil; now left|]. destruct IH as [c Hc]. destruct (ticks_ne M k) as [t Ht]. exists (t :: c). apply in_flat_map. exists c. split; auto. now apply (in_map (fun t => t :: c)). }
  destruct E as [c Hc] . intro Z. rewrite Z in Hc. contradiction.
Qed.
Lemma ticks_near M k g : 0 <= M -> - M <= g <= M -> exists t, In t (ticks M k) /\ Rabs (t - g) <= / INR (S k).
Proof.
  intros HM Hg. assert (P : 0 < INR (S k)) by (apply lt_0_INR; lia). set (z := (g + M) * INR (S k)). assert (Hz : 0 <= z) by (unfold z; nra).
  destruct (archimed z) as [A1 A2]. set (i := Z.to_nat (up z - 1)).
  assert (U0 : (0 < up z)%Z) by (apply lt_IZR; lra).
  assert (Ei : INR i = IZR (up z) - 1). { unfold i. rewrite INR_IZR_INZ, Z2Nat.id by lia. rewrite minus_IZR. reflexivity. }
  exists (- M + INR i * / INR (S k)). split.
  - unfold ticks. apply (in_map (fun i => - M + INR i * / INR (S k))), in_seq. split; [lia|]. unfold i. assert (L : (up z <= up (2 * M * INR (S k)))%Z).
    { destruct (archimed (2 * M * INR (S k))) as [B1 B2]. assert (z <= 2 * M * INR (S k)) by (unfold z; nra). apply Z.lt_succ_r, lt_IZR. rewrite succ_IZR. lra. }
    lia.
  - rewrite Ei. replace (- M + (IZR (up z) - 1) * / INR (S k) - g) with ((IZR (up z) - 1 - z) * / INR (S k)) by (unfold z; field; lra).
    assert (I : 0 < / INR (S k)) by (now apply Rinv_0_lt_compat). rewrite Rabs_mult, (Rabs_right (/ INR (S k))) by lra. assert (Rabs (IZR (up z) - 1 - z) <= 1) by (apply Rabs_le; lra). nra.
Qed.
Lemma grid_near M n k G : 0 <= M -> (forall i, (i < n)%nat -> - M <= G i <= M) -> exists c, In c (grid M n k) /\ forall i, (i < n)%nat -> Rabs (at_ c i - G i) <= / INR (S k).
Proof.
  intro HM. revert G. induction n as [|n IH]; intros G H; cbn [grid]; [exists nil; split; [now left|intros; lia]|].
  destruct (IH (fun i => G (S i))) as [c [Hc D]]; [intros i Hi; apply H; lia|]. destruct (ticks_near M k (G 0%nat) HM (H 0%nat ltac:(lia))) as [t [Ht E]].
  exists (t :: c). split; [apply in_flat_map; exists c; split; auto; now apply (in_map (fun t => t :: c))|]. intros [|i] Hi; [exact E|]. apply (D i). lia.
Qed.
Lemma ticks_bound M k t : 0 <= M -> In t (ticks M k) -> - (M + 1) <= t <= M + 1.
Proof.
  intros HM H. unfold ticks in H. apply in_map_iff in H. destruct H as [i [<- Hi]]. apply in_seq in Hi. assert (P : 1 <= INR (S k)) by (change 1 with (INR 1); apply le_INR; lia).
  assert (I : 0 < / INR (S k) <= 1). { split; [apply Rinv_0_lt_compat; lra|]. rewrite <- Rinv_1. apply Rinv_le_contravar; lra. }
  assert (0 <= INR i) by apply pos_INR. split; [nra|]. destruct (archimed (2 * M * INR (S k))) as [B1 B2].
  assert (INR i <= IZR (up (2 * M * INR (S k)))).
  { rewrite INR_IZR_INZ. apply IZR_le. assert ((0 < up (2 * M * INR (S k)))%Z) by (apply lt_IZR; nra). lia. }
  assert (INR i * / INR (S k) <= (2 * M * INR (S k) + 1) * / INR (S k)) by (apply Rmult_le_compat_r; lra).
  replace ((2 * M * INR (S k) + 1) * / INR (S k)) with (2 * M + / INR (S k)) in H1 by (field; lra). lra.
Qed.
Lemma grid_bound M n k c i : 0 <= M -> In c (grid M n k) -> (i < n)%nat -> - (M + 1) <= at_ c i <= M + 1.
Proof.
  intros HM. revert c i. induction n as [|n IH]; intros c i Hc Hi; [lia|]. cbn [grid] in Hc. apply in_flat_map in Hc. destruct Hc as [d [Hd Hc]]. apply in_map_iff in Hc. destruct Hc as [t [<- Ht]].
  destruct i as [|i]; [exact (ticks_bound M k t HM Ht)|]. apply (IH d i); auto. lia.
Qed.
Lemma best_of (f : list R -> R) (l : list (list R)) : l <> nil -> { c | In c l /\ forall d, In d l -> f d <= f c }.
Proof.
  induction l as [|a l IH]; [congruence|]. intros _. destruct l as [|b l].
  - exists a. split; [now left|]. intros d [<- |[]]. lra.
  - destruct IH as [c [Hc M]]; [discriminate|]. destruct (Rle_dec (f a) (f c)) as [L|L].
    + exists c. split; [now right|]. intros d [<- |Hd]; auto.
    + exists a. split; [now left|]. intros d [<- |Hd]; [lra|]. specialize (M d Hd). lra.
Qed.

(** ---- maximum on a box ---- *)
Definition seq_continuous (n : nat) (f : (nat -> R) -> R) : Prop :=
  forall (x : nat -> nat -> R) (l : nat -> R), (forall i, (i < n)%nat -> is_lim_seq (fun k => x k i) (l i)) -> is_lim_seq (fun k => f (x k)) (f l).
Lemma box_max n f M : 0 <= M -> seq_continuous n f -> exists F, forall G, (forall i, (i < n)%nat -> - M <= G i <= M) -> f G <= f F.
Proof.
  intros HM C. pose (x := fun k => at_ (proj1_sig (best_of (fun c => f (at_ c)) (grid M n k) (grid_ne M n k)))).
  assert (Hx : forall k, exists c, x k = at_ c /\ In c (grid M n k) /\ forall d, In d (grid M n k) -> f (at_ d) <= f (x k)).
  { intro k. unfold x. destruct best_of as [c [Hc B]]. cbn. exists c. auto. }
  destruct (bw_all n x (M + 1)) as [phi [l [G L]]].
  { intros k i Hi. destruct (Hx k) as [c [E [Hc _]]]. rewrite E. now apply (grid_bound M n k). }
  exists l. intros g Hg.
  assert (Y : exists y : nat -> nat -> R, (forall k, f (y k) <= f (x (phi k))) /\ forall k i, (i < n)%nat -> Rabs (y k i - g i) <= / INR (S k)).
  { pose (near_c := fun k => proj1_sig (best_of (fun c => - fold_right Rmax 0 (map (fun i => Rabs (at_ c i - g i)) (seq 0 n))) (grid M n (phi k)) (grid_ne M n (phi k)))).
    assert (FM : forall (h : nat -> R) (m : list nat) i, In i m -> h i <= fold_right Rmax 0 (map h m)).
    { intros h m i Hi. induction m as [|a m IH]; [contradiction|]. cbn. destruct Hi as [-> |Hi]; [apply Rmax_l|]. eapply Rle_trans; [now apply IH|apply Rmax_r]. }
    assert (FL : forall (h : nat -> R) (m : list nat) b, 0 <= b -> (forall i, In i m -> h i <= b) -> fold_right Rmax 0 (map h m) <= b).
    { intros h m b Hb H. induction m as [|a m IH]; cbn; auto. apply Rmax_lub; [apply H; now left|]. apply IH. intros i Hi. apply H. now right. }
    exists (fun k => at_ (near_c k)). split.
    - intro k. destruct (Hx (phi k)) as [c [_ [_ B]]]. apply B. unfold near_c. destruct best_of as [d [Hd Bd]]. exact Hd.
    - intros k i Hi. unfold near_c. destruct best_of as [d [Hd B]]. cbn [proj1_sig]. destruct (grid_near M n (phi k) g HM Hg) as [c [Hc D]]. specialize (B c Hc). cbn beta in B.
      assert (A1 := FM (fun i => Rabs (at_ d i - g i)) (seq 0 n) i ltac:(apply in_seq; lia)). cbn beta in A1.
      assert (Pk : 0 < INR (S (phi k))) by (apply lt_0_INR; lia).
      assert (A2 := FL (fun i => Rabs (at_ c i - g i)) (seq 0 n) (/ INR (S (phi k))) ltac:(left; now apply Rinv_0_lt_compat) ltac:(intros j Hj; apply D; apply in_seq in Hj; lia)).
      assert (A3 : / INR (S (phi k)) <= / INR (S k)). { apply Rinv_le_contravar; [apply lt_0_INR; lia|]. apply le_INR. assert (T := grows_ge phi G k). lia. }
      lra. }
  destruct Y as [y [Y1 Y2]].
  assert (L1 : is_lim_seq (fun k => f (y k)) (f g)).
  { apply C. intros i Hi. apply is_lim_seq_Reals. intros eps He. destruct (archimed_cor1 eps He) as [N [HN HN0]]. exists N. intros k Hk. unfold R_dist. eapply Rle_lt_trans; [now apply Y2|].
    eapply Rle_lt_trans; [|exact HN]. apply Rinv_le_contravar; [apply lt_0_INR; lia|]. apply le_INR. lia. }
  assert (L2 : is_lim_seq (fun k => f (x (phi k))) (f l)) by (apply (C (fun k => x (phi k))); exact L).
  exact (is_lim_seq_le _ _ (f g) (f l) Y1 L1 L2).
Qed.
