(** Independent points: a winner of all comparisons, and a chain that is not respected. *)
From Coq Require Import Permutation.
From Coquelicot Require Import Coquelicot.
From Coq Require Import Reals Lra Lia List.
From Verif Require Import M_RBase M_Normal M_PrefProbit M_OrdProbit M_AbsProbit M_Acq M_GP M_Search M_Fit S_PrefProbit S_OrdProbit S_AbsProbit S_GP S_Fit S_Mode P_RBase P_Acq P_Normal P_PrefProbit P_Put P_OrdProbit P_AbsProbit P_Chol P_GP P_GP3 P_Fit P_Fit2 P_Fit3 P_Fit4 P_Fit5 P_Mode P_Mode2 P_Mode3 P_Mode4.
From Verif Require Import S_Psd P_Psd.
Local Open Scope R_scope.

Lemma unit_sym n : symmetric n unit_prior.
Proof. intros i j _ _. unfold unit_prior. now rewrite Nat.eqb_sym. Qed.
Lemma unit_qform n c : qform n unit_prior c = sumn n (fun i => c i * c i).
Proof.
  unfold qform. apply sumn_ext. intros i Hi. rewrite (sumn_single n _ i Hi); unfold unit_prior; [rewrite Nat.eqb_refl; ring|]. intros j _ N. rewrite (proj2 (Nat.eqb_neq i j)) by auto. ring.
Qed.
Lemma unit_pd n : pd n unit_prior.
Proof.
  intros c [i [Hi Hc]]. rewrite unit_qform. assert (A : c i * c i <= sumn n (fun i => c i * c i)).
  { rewrite <- (sumn_unit n i (fun i => c i * c i) Hi). apply sumn_le. intros j _. unfold unitv. assert (0 <= c j * c j) by (apply Rle_0_sqr). destruct (Nat.eqb j i); lra. }
  assert (0 < c i * c i) by (assert (T := Rsqr_pos_lt _ Hc); exact T). lra.
Qed.
Lemma unit_inverse n : right_inverse n unit_prior unit_prior.
Proof.
  intros i j Hi Hj. rewrite (sumn_single n _ i Hi); unfold unit_prior; [rewrite Nat.eqb_refl, Rmult_1_l; reflexivity|]. intros a _ N. rewrite (proj2 (Nat.eqb_neq i a)) by auto. ring.
Qed.
(** one winner *)
Lemma winner_cov n K w p q : independent n K -> pd n K -> well_formed n (p :: nil) -> well_formed n (q :: nil) -> wins w p -> wins w q -> proper p -> proper q -> 0 <= margin_cov K p q.
Proof.
  intros I PK Wp Wq Hp Hq Pp Pq. destruct (Wp p (or_introl eq_refl)) as [Hu [Hv _]]. destruct (Wq q (or_introl eq_refl)) as [Hu' [Hv' _]]. unfold proper in *. unfold margin_cov.
  assert (D : forall i, (i < n)%nat -> 0 < K i i) by (intros; now apply (diag_pos n K PK)).
  destruct Hp as [[-> E]|[-> E]]; destruct Hq as [[-> E']|[-> E']].
  - rewrite E, E' in *. rewrite (I w (u_of q)), (I (u_of p) w) by auto. assert (A := D w Hv). destruct (Nat.eq_dec (u_of p) (u_of q)) as [Eu|Nu]; [rewrite Eu; assert (C := D (u_of q) Hu'); lra|rewrite (I (u_of p) (u_of q)) by auto; lra].
  - rewrite E, E' in *. rewrite (I w (v_of q)), (I (u_of p) w) by auto. assert (A := D w Hv). destruct (Nat.eq_dec (u_of p) (v_of q)) as [Eu|Nu]; [rewrite Eu; assert (C := D (v_of q) Hv'); lra|rewrite (I (u_of p) (v_of q)) by auto; lra].
  - rewrite E, E' in *. rewrite (I w (u_of q)), (I (v_of p) w) by auto. assert (A := D w Hu). destruct (Nat.eq_dec (v_of p) (u_of q)) as [Eu|Nu]; [rewrite Eu; assert (C := D (u_of q) Hu'); lra|rewrite (I (v_of p) (u_of q)) by auto; lra].
  - rewrite E, E' in *. rewrite (I w (v_of q)), (I (v_of p) w) by auto. assert (A := D w Hu). destruct (Nat.eq_dec (v_of p) (v_of q)) as [Eu|Nu]; [rewrite Eu; assert (C := D (v_of q) Hv'); lra|rewrite (I (v_of p) (v_of q)) by auto; lra].
Qed.
Lemma winner_respected sp P n r K B w F : 0 < p_sigma (ps_p P) -> well_formed n r -> symmetric n K -> pd n K -> right_inverse n K B -> independent n K ->
  (forall p, In p r -> wins w p /\ proper p) -> mode sp P (only r) n B F -> forall p, In p r -> agrees F p.
Proof.
  intros S WF SK PK IB I W M p Hp. apply (mode_supporting sp P n r K B S WF SK PK IB F M); auto; [|now apply W]. intros a b Ha Hb. destruct (W a Ha), (W b Hb).
  apply (winner_cov n K w a b I PK); auto; now apply (wf_one n r).
Qed.

(** ---- the chain ---- *)
Lemma beaten_wf N : well_formed (N + 2) (beaten_once N).
Proof.
  intros p [<- |H]; [cbn; split; [lia|]; split; [lia|now left]|]. apply in_map_iff in H. destruct H as [k [<- Hk]]. apply in_seq in Hk. unfold u_of, v_of, dk_of. cbn. split; [lia|]. split; [lia|now left].
Qed.
Lemma beaten_consistent N : consistent (beaten_once N).
Proof.
  exists (fun i => if Nat.eqb i 0 then 0 else if Nat.eqb i (S N) then -1 else 1). intros p [<- |H]; left.
  - unfold u_of, v_of, dk_of, last_pair. cbn [fst snd]. split; [reflexivity|]. rewrite Nat.eqb_refl. cbn. lra.
  - apply in_map_iff in H. destruct H as [k [<- Hk]]. apply in_seq in Hk. unfold u_of, v_of, dk_of. cbn [fst snd]. split; [reflexivity|]. rewrite (proj2 (Nat.eqb_neq (S k) (S N))) by lia. cbn. lra.
Qed.
Section Chain.
Variables (sp : special) (P : probit_set) (N : nat) (F : nat -> R).
Hypothesis GP : good_probits sp P.
Hypothesis SP : 0 < p_sigma (ps_p P).
Hypothesis M : mode sp P (only (beaten_once N)) (N + 2) unit_prior F.
Let s := p_sigma (ps_p P).
Let c := s * sqrt 2.
Let h (p : pair) : R := hazard (margin F p / c).
Lemma c_pos : 0 < c.
Proof. apply Rmult_lt_0_compat; [exact SP|apply sqrt2_pos]. Qed.
Definition up_pair (k : nat) : pair := (1%Z, 0%nat, S k).
Definition total : R := rsum (map (fun k => h (up_pair k)) (seq 0 N)).
Lemma pull_h p : pull s F p = h p / c.
Proof. reflexivity. Qed.
Lemma eq_F i : (i < N + 2)%nat -> F i = h (last_pair N) / c * (unit_prior i 0 - unit_prior i (S N)) + rsum (map (fun k => h (up_pair k) / c * (unit_prior i (S k) - unit_prior i 0)) (seq 0 N)).
Proof.
  intro Hi. rewrite (mode_equation sp P (N + 2) (beaten_once N) unit_prior unit_prior SP (unit_sym _) (unit_inverse _) F i M Hi) at 1. unfold beaten_once. cbn [map rsum]. f_equal.
  - fold s. rewrite pull_h. unfold last_pair, dk_of, u_of, v_of. cbn [fst snd]. ring.
  - rewrite map_map. apply rsum_ext. intros k _. fold s. rewrite pull_h. unfold up_pair, dk_of, u_of, v_of. cbn [fst snd]. ring.
Qed.
Lemma sum_one k l (f : nat -> R) : NoDup l -> In k l -> rsum (map (fun j => f j * (if Nat.eqb k j then 1 else 0)) l) = f k.
Proof.
  induction l as [|a l IH]; intros Nd Hk; [contradiction|]. inversion Nd; subst. cbn [map rsum]. destruct Hk as [-> |Hk].
  - rewrite Nat.eqb_refl. assert (Z : rsum (map (fun j => f j * (if Nat.eqb k j then 1 else 0)) l) = 0); [|rewrite Z; ring].
    clear IH Nd H2. induction l as [|b l IH]; [reflexivity|]. cbn [map rsum]. rewrite IH by (intro T; apply H1; now right). destruct (Nat.eqb_spec k b) as [-> |]; [exfalso; apply H1; now left|ring].
  - destruct (Nat.eqb_spec k a) as [-> |]; [contradiction|]. rewrite IH by auto. ring.
Qed.
Lemma F_zero : F 0%nat = (h (last_pair N) - total) / c.
Proof.
  rewrite eq_F by lia. unfold unit_prior. rewrite Nat.eqb_refl. cbn [Nat.eqb]. unfold total. assert (C := c_pos).
  transitivity (h (last_pair N) / c * (1 - 0) + rsum (map (fun k => - / c * h (up_pair k)) (seq 0 N))); [f_equal; apply rsum_ext; intros; unfold Rdiv; ring|]. rewrite rsum_map_scale. unfold Rdiv. ring.
Qed.
Lemma F_last : F (S N) = - h (last_pair N) / c.
Proof.
  rewrite eq_F by lia. unfold unit_prior. rewrite Nat.eqb_refl. cbn [Nat.eqb]. transitivity (h (last_pair N) / c * (0 - 1) + 0); [|unfold Rdiv; ring]. f_equal.
  transitivity (rsum (map (fun _ : nat => 0 * 0) (seq 0 N))); [apply rsum_ext; intros k Hk; apply in_seq in Hk; rewrite (proj2 (Nat.eqb_neq N k)) by lia; ring|]. rewrite (rsum_map_scale 0 (fun _ => 0)). ring.
Qed.
Lemma F_up k : (k < N)%nat -> F (S k) = h (up_pair k) / c.
Proof.
  intro Hk. rewrite eq_F by lia. unfold unit_prior. cbn [Nat.eqb]. rewrite (proj2 (Nat.eqb_neq k N)) by lia. rewrite (rsum_ext _ (fun j => h (up_pair j) / c * (if Nat.eqb k j then 1 else 0))).
  - rewrite (sum_one k (seq 0 N) (fun j => h (up_pair j) / c)); [ring|apply seq_NoDup|apply in_seq; lia].
  - intros; ring.
Qed.
Lemma h_pos p : 0 < h p.
Proof. apply hazard_pos. Qed.
Lemma chain_bound : agrees F (last_pair N) -> INR N * hazard (2 * hazard 0 / c ^ 2) <= 2 * hazard 0.
Proof.
  intro A. assert (C := c_pos). assert (L : F (S N) < F 0%nat). { destruct A as [[_ A]|[A _]]; [exact A|]. unfold last_pair, dk_of in A. cbn in A. lra. }
  rewrite F_zero, F_last in L. assert (T2 : total < 2 * h (last_pair N)). { apply (Rmult_lt_reg_r (/ c)); [now apply Rinv_0_lt_compat|]. unfold Rdiv in L. lra. }
  assert (H2 : h (last_pair N) <= hazard 0).
  { unfold h. assert (0 < margin F (last_pair N) / c). { apply Rdiv_lt_0_compat; auto. unfold margin, last_pair, dk_of, u_of, v_of. cbn [fst snd]. rewrite F_zero, F_last. unfold Rdiv in *. lra. } left. now apply hazard_decreasing. }
  assert (Hk : forall k, (k < N)%nat -> hazard (2 * hazard 0 / c ^ 2) <= h (up_pair k)).
  { intros k Hk. set (z := margin F (up_pair k) / c). assert (Ez : z = (h (up_pair k) + total - h (last_pair N)) / c ^ 2).
    { unfold z, margin, up_pair at 1 2 3, dk_of, u_of, v_of. cbn [fst snd]. rewrite F_zero, (F_up k Hk). field. lra. }
    assert (C2 : 0 < c ^ 2) by (apply pow_lt; auto). assert (Z2 : 0 < 2 * hazard 0 / c ^ 2) by (apply Rdiv_lt_0_compat; auto; assert (T := hazard_pos 0); lra).
    destruct (Rle_or_lt z 0) as [Z|Z].
    - change (hazard (2 * hazard 0 / c ^ 2) <= hazard z). left. apply hazard_decreasing. lra.
    - assert (h (up_pair k) < hazard 0) by (unfold h; fold z; now apply hazard_decreasing). assert (Le : z < 2 * hazard 0 / c ^ 2) by (rewrite Ez; apply Rmult_lt_compat_r; [now apply Rinv_0_lt_compat|lra]).
      change (hazard (2 * hazard 0 / c ^ 2) <= hazard z). left. now apply hazard_decreasing. }
  assert (T3 : INR N * hazard (2 * hazard 0 / c ^ 2) <= total).
  { unfold total. assert (G : forall l, (forall k, In k l -> (k < N)%nat) -> INR (length l) * hazard (2 * hazard 0 / c ^ 2) <= rsum (map (fun k => h (up_pair k)) l)).
    { induction l as [|a l IH]; intro Hl; [cbn; lra|]. cbn [map rsum]. change (length (a :: l)) with (S (length l)). rewrite S_INR. specialize (IH (fun k H => Hl k (or_intror H))). assert (T := Hk a (Hl a (or_introl eq_refl))). lra. }
    specialize (G (seq 0 N)). rewrite seq_length in G. apply G. intros k H. apply in_seq in H. lia. }
  lra.
Qed.
End Chain.
Lemma chain_broken sp P : good_probits sp P -> 0 < p_sigma (ps_p P) -> exists N0, forall N, (N0 <= N)%nat -> consistent (beaten_once N) /\ (exists F, mode sp P (only (beaten_once N)) (N + 2) unit_prior F) /\
  forall F, mode sp P (only (beaten_once N)) (N + 2) unit_prior F -> ~ agrees F (last_pair N).
Proof.
  intros GP S. set (c := p_sigma (ps_p P) * sqrt 2). set (d := hazard (2 * hazard 0 / c ^ 2)). assert (D : 0 < d) by apply hazard_pos. destruct (nfloor_ex (2 * hazard 0 / d)) as [N0 [_ H0]]; [left; apply Rdiv_lt_0_compat; auto; assert (T := hazard_pos 0); lra|].
  exists (Datatypes.S N0). intros N HN. split; [apply beaten_consistent|]. split.
  - apply (mode_exists sp P (N + 2) (only (beaten_once N)) unit_prior unit_prior GP (only_good P _ _ (beaten_wf N)) (only_discrete P _) (unit_sym _) (unit_pd _) (unit_inverse _)).
  - intros F M A. assert (T := chain_bound sp P N F S M A). fold c d in T. apply le_INR in HN. rewrite S_INR in HN. assert (2 * hazard 0 < INR N * d); [|lra]. apply (Rmult_lt_reg_r (/ d)); [now apply Rinv_0_lt_compat|]. replace (INR N * d * / d) with (INR N) by (field; lra). unfold Rdiv in H0. lra.
Qed.
