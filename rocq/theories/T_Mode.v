(** Properties C127-C132: the latent values that find_mode looks for, and what they say about the answers *)
From Coq Require Import Permutation.
From Coquelicot Require Import Coquelicot.
From Coq Require Import Reals Lra Lia List.
From Verif Require Import M_Fake M_RBase M_Normal M_PrefProbit M_OrdProbit M_AbsProbit M_Acq M_GP M_Search M_Fit S_PrefProbit S_OrdProbit S_AbsProbit S_Kernel S_GP S_Fit S_Mode P_RBase P_Normal P_AbsProbit P_Chol P_GP P_GP3 P_Fit P_Fit2 P_Fit3 P_Fit4 P_Fit5 P_Mode3 P_Mode4 P_Mode5 P_Mode6 P_Mode7 P_Mode8 T_GP T_Fit.
From Verif Require Import S_Psd P_Psd.
Local Open Scope R_scope.

(** C127: the log posterior has a mode; with comparisons and ordinal labels it has exactly one, and with comparisons find_mode stands still exactly there *)
Theorem C127_exists : forall sp P n y, good_probits sp P -> good_labels P n y -> (y_ord y <> None -> separated (ps_o P)) -> forall K B, symmetric n K -> pd n K -> right_inverse n K B -> exists F, mode sp P y n B F.
Proof. exact mode_exists_all. Qed.
Print Assumptions C127_exists.
(** a comparison, an ordinal label and a rating *)
Lemma ex_separated : separated (ps_o ex_P).
Proof. split; [cbn; lra|]. split; [reflexivity|]. intros i j H1 H2. cbn in H2. lia. Qed.
Lemma ex_pdK : pd 2 ex_K.
Proof. apply pd_two; [reflexivity|lra|lra]. Qed.
Example C127_ex : exists B F, right_inverse 2 ex_K B /\ mode sp_ex ex_P ex_y 2 B F.
Proof.
  destruct ex_chol as [L [B [_ EB]]]. destruct (C127_exists sp_ex ex_P 2 ex_y ex_good ex_labels (fun _ => ex_separated) ex_K B ex_sym ex_pdK EB) as [F M]. exists B, F. split; assumption.
Qed.
Theorem C127_unique : forall sp P n y K B, good_probits sp P -> good_labels P n y -> discrete P y -> symmetric n K -> pd n K -> right_inverse n K B ->
  forall F G, mode sp P y n B F -> mode sp P y n B G -> forall i, (i < n)%nat -> F i = G i.
Proof. exact mode_only. Qed.
Print Assumptions C127_unique.
(** how far the other values are below the mode *)
Theorem C127_gap : forall sp P n y K B, good_probits sp P -> good_labels P n y -> discrete P y -> symmetric n K -> pd n K -> right_inverse n K B ->
  forall F G, mode sp P y n B F -> log_post sp P y n B G <= log_post sp P y n B F - 1 / 2 * qform n B (fun i => G i - F i).
Proof. exact mode_strong. Qed.
Print Assumptions C127_gap.
Theorem C127_bounded : forall sp P n y K B, good_probits sp P -> good_labels P n y -> discrete P y -> symmetric n K -> pd n K -> right_inverse n K B ->
  forall F i, mode sp P y n B F -> (i < n)%nat -> F i ^ 2 <= K i i * - LL sp P y (fun _ => 0).
Proof. exact mode_entry_bound. Qed.
Print Assumptions C127_bounded.
(** a comparison and an ordinal label *)
Definition ex_yd : labels := mkLabels (Some ex_r) (Some ((2%nat, 1%nat) :: nil)) None.
Lemma ex_yd_good : good_labels ex_P 2 ex_yd.
Proof. destruct ex_labels as [A [B _]]. split; [exact A|]. split; [exact B|]. intros a H. discriminate H. Qed.
Lemma ex_yd_discrete : discrete ex_P ex_yd.
Proof. split; [reflexivity|]. intros _. exact ex_separated. Qed.
Example C127_discrete_ex : exists B F, right_inverse 2 ex_K B /\ mode sp_ex ex_P ex_yd 2 B F /\ (forall G, mode sp_ex ex_P ex_yd 2 B G -> G 1%nat = F 1%nat) /\ F 1%nat ^ 2 <= 2 * - LL sp_ex ex_P ex_yd (fun _ => 0).
Proof.
  destruct ex_chol as [L [B [_ EB]]]. destruct (C127_exists sp_ex ex_P 2 ex_yd ex_good ex_yd_good (fun _ => ex_separated) ex_K B ex_sym ex_pdK EB) as [F M]. exists B, F. split; [exact EB|]. split; [exact M|]. split.
  - intros G MG. exact (C127_unique sp_ex ex_P 2 ex_yd ex_K B ex_good ex_yd_good ex_yd_discrete ex_sym ex_pdK EB G F MG M 1%nat ltac:(lia)).
  - exact (C127_bounded sp_ex ex_P 2 ex_yd ex_K B ex_good ex_yd_good ex_yd_discrete ex_sym ex_pdK EB F 1%nat M ltac:(lia)).
Qed.
Theorem C127_standstill : forall sp P n r K L B inv F, good_probits sp P -> well_formed n r -> symmetric n K -> chol n K = Some L -> right_inverse n K B -> inverts_all inv ->
  length F = n -> unclipped (p_sigma (ps_p P)) r (entries F) -> (mode_step sp P (only r) n L inv F = Ok F <-> mode sp P (only r) n B (entries F)).
Proof. exact mode_standstill. Qed.
Print Assumptions C127_standstill.
(** with not too many comparisons the mode is not clipped, so there is exactly one place where find_mode stands still *)
Theorem C127_fixed_point : forall sp P n r K L B inv, good_probits sp P -> 0 < p_sigma (ps_p P) -> well_formed n r -> symmetric n K -> chol n K = Some L -> right_inverse n K B -> inverts_all inv ->
  (forall p, In p r -> INR (length r) * margin_cov K p p < 1800 * p_sigma (ps_p P) ^ 2) ->
  exists F, length F = n /\ mode_step sp P (only r) n L inv F = Ok F /\ mode sp P (only r) n B (entries F) /\
    forall G, length G = n -> unclipped (p_sigma (ps_p P)) r (entries G) -> mode_step sp P (only r) n L inv G = Ok G -> G = F.
Proof. exact mode_fixed_point. Qed.
Print Assumptions C127_fixed_point.
Lemma ex_wf : well_formed 2 ex_r.
Proof. intros p [<- |[]]. cbn. split; [lia|]. split; [lia|now left]. Qed.
Example C127_fixed_ex : exists L F, chol 2 ex_K = Some L /\ settled sp_ex ex_P ex_r 2 L safe_inv F.
Proof.
  destruct ex_chol as [L [B [EL EB]]]. destruct (C127_fixed_point sp_ex ex_P 2 ex_r ex_K L B safe_inv ex_good ex_sigma ex_wf ex_sym EL EB (proj1 safe_routine)) as [F [E1 [E2 [M _]]]].
  - intros p [<- |[]]. unfold margin_cov, dk_of, u_of, v_of. cbn. lra.
  - exists L, F. split; [exact EL|]. split; [exact E1|]. split; [|exact E2]. apply (mode_unclipped sp_ex ex_P 2 ex_r ex_K B ex_good ex_sigma ex_wf ex_sym ex_pdK EB (entries F) M).
    intros p [<- |[]]. unfold margin_cov, dk_of, u_of, v_of. cbn. lra.
Qed.

(** C128: what the mode says about the comparisons *)
Theorem C128_equation : forall sp P n r K B, 0 < p_sigma (ps_p P) -> symmetric n K -> right_inverse n K B -> forall F i, mode sp P (only r) n B F -> (i < n)%nat ->
  F i = rsum (map (fun p => pull (p_sigma (ps_p P)) F p * (dk_of p * (K i (v_of p) - K i (u_of p)))) r) /\ forall p, 0 < pull (p_sigma (ps_p P)) F p.
Proof. intros sp P n r K B S SK IB F i M Hi. split; [exact (mode_equation sp P n r K B S SK IB F i M Hi)|]. intro p. now apply pull_pos. Qed.
Print Assumptions C128_equation.
Theorem C128_likelihood : forall sp P n r K B, good_probits sp P -> well_formed n r -> symmetric n K -> pd n K -> right_inverse n K B -> forall F, mode sp P (only r) n B F ->
  qform n B F - INR (length r) * ln 2 <= LLp (p_sigma (ps_p P)) r F.
Proof. exact mode_likelihood. Qed.
Print Assumptions C128_likelihood.
Theorem C128_some : forall sp P n r K B, 0 < p_sigma (ps_p P) -> well_formed n r -> symmetric n K -> pd n K -> right_inverse n K B -> forall F, mode sp P (only r) n B F ->
  (exists p, In p r /\ agrees F p) \/ forall i, (i < n)%nat -> F i = 0.
Proof. exact mode_some. Qed.
Print Assumptions C128_some.
Theorem C128_consistent : forall sp P n r K B, 0 < p_sigma (ps_p P) -> well_formed n r -> symmetric n K -> pd n K -> right_inverse n K B -> forall F, mode sp P (only r) n B F ->
  consistent r -> r <> nil -> exists p, In p r /\ agrees F p.
Proof. exact mode_consistent. Qed.
Print Assumptions C128_consistent.
Theorem C128_supporting : forall sp P n r K B, 0 < p_sigma (ps_p P) -> well_formed n r -> symmetric n K -> pd n K -> right_inverse n K B -> forall F, mode sp P (only r) n B F ->
  (forall p q, In p r -> In q r -> 0 <= margin_cov K p q) -> forall p, In p r -> proper p -> agrees F p.
Proof. exact mode_supporting. Qed.
Print Assumptions C128_supporting.
Theorem C128_repeated : forall sp P n p m K B, 0 < p_sigma (ps_p P) -> well_formed n (p :: nil) -> proper p -> symmetric n K -> pd n K -> right_inverse n K B ->
  forall F, mode sp P (only (repeat p (S m))) n B F -> agrees F p.
Proof. exact mode_repeated. Qed.
Print Assumptions C128_repeated.
Theorem C128_balanced : forall sp P n r K B F, good_probits sp P -> well_formed n r -> symmetric n K -> pd n K -> right_inverse n K B -> Permutation r (map contrary r) ->
  mode sp P (only r) n B F -> forall i, (i < n)%nat -> F i = 0.
Proof. exact mode_balanced. Qed.
Print Assumptions C128_balanced.
(** the same where find_mode stands still *)
Theorem C128_settled_equation : forall sp P n K L inv, good_probits sp P -> 0 < p_sigma (ps_p P) -> symmetric n K -> chol n K = Some L -> inverts_all inv -> forall r F i, well_formed n r -> settled sp P r n L inv F -> (i < n)%nat ->
  nth i F 0 = rsum (map (fun p => pull (p_sigma (ps_p P)) (entries F) p * (dk_of p * (K i (v_of p) - K i (u_of p)))) r).
Proof. exact settled_equation. Qed.
Print Assumptions C128_settled_equation.
Theorem C128_settled : forall sp P n K L inv, good_probits sp P -> 0 < p_sigma (ps_p P) -> symmetric n K -> chol n K = Some L -> inverts_all inv -> forall r F, well_formed n r -> settled sp P r n L inv F ->
  (consistent r -> r <> nil -> exists p, In p r /\ agrees (entries F) p) /\
  ((forall p q, In p r -> In q r -> 0 <= margin_cov K p q) -> forall p, In p r -> proper p -> agrees (entries F) p) /\
  (Permutation r (map contrary r) -> F = repeat 0 n).
Proof. exact settled_answers. Qed.
Print Assumptions C128_settled.
Example C128_ex : exists B F, right_inverse 2 ex_K B /\ mode sp_ex ex_P (only ex_r) 2 B F /\ F 0%nat < F 1%nat.
Proof.
  destruct ex_chol as [L [B [_ EB]]]. destruct (C127_exists sp_ex ex_P 2 (only ex_r) ex_good ex_only (fun H => False_ind _ (H eq_refl)) ex_K B ex_sym ex_pdK EB) as [F M]. exists B, F. split; [exact EB|]. split; [exact M|].
  assert (A : consistent ex_r) by (exists INR; intros p [<- |[]]; left; cbn; split; [reflexivity|lra]).
  destruct (C128_consistent sp_ex ex_P 2 ex_r ex_K B ex_sigma ex_wf ex_sym ex_pdK EB F M A ltac:(discriminate)) as [p [[<- |[]] [[_ T]|[T _]]]]; [exact T|]. unfold dk_of in T. cbn in T. lra.
Qed.
(** point 1 is preferred to point 0 twice, written in both ways *)
Definition ex_both : list pair := (1%Z, 0%nat, 1%nat) :: (-1, 1%nat, 0%nat)%Z :: nil.
Example C128_supporting_ex : well_formed 2 ex_both /\ (forall p q, In p ex_both -> In q ex_both -> 0 <= margin_cov ex_K p q) /\ forall p, In p ex_both -> proper p.
Proof.
  split; [intros p [<- |[<- |[]]]; cbn; (split; [lia|]); (split; [lia|]); [now left|now right]|]. split; [|intros p [<- |[<- |[]]]; unfold proper; cbn; lia].
  intros p q [<- |[<- |[]]] [<- |[<- |[]]]; unfold margin_cov, dk_of, u_of, v_of; cbn; lra.
Qed.
Example C128_balanced_ex : exists B F, right_inverse 2 ex_K B /\ mode sp_ex ex_P (only ex_opp) 2 B F /\ F 0%nat = 0 /\ F 1%nat = 0.
Proof.
  destruct ex_chol as [L [B [_ EB]]]. destruct (C127_exists sp_ex ex_P 2 (only ex_opp) ex_good ex_opp_good (fun H => False_ind _ (H eq_refl)) ex_K B ex_sym ex_pdK EB) as [F M]. exists B, F. split; [exact EB|]. split; [exact M|].
  assert (Z := C128_balanced sp_ex ex_P 2 ex_opp ex_K B F ex_good (proj1 ex_opp_good ex_opp eq_refl) ex_sym ex_pdK EB ltac:(apply perm_swap) M). split; apply Z; lia.
Qed.

(** C129: one more label *)
Theorem C129_comparison : forall sp P y n B p F F', 0 < p_sigma (ps_p P) -> mode sp P y n B F -> mode sp P (more y p) n B F' -> margin F p <= margin F' p.
Proof. exact mode_more. Qed.
Print Assumptions C129_comparison.
Theorem C129_strict : forall sp P y n K B p F F', good_probits sp P -> 0 < p_sigma (ps_p P) -> good_labels P n y -> discrete P y -> well_formed n (p :: nil) -> proper p ->
  symmetric n K -> pd n K -> right_inverse n K B -> mode sp P y n B F -> mode sp P (more y p) n B F' -> margin F p < margin F' p.
Proof. exact mode_more_strict. Qed.
Print Assumptions C129_strict.
Theorem C129_ordinal : forall sp P y n B k F F', separated (ps_o P) -> (1 <= fst k <= o_n (ps_o P))%nat -> mode sp P y n B F -> mode sp P (more_ord y k) n B F' ->
  label_prob (o_n (ps_o P)) (o_sigma (ps_o P)) (o_b (ps_o P)) (fst k) (F (snd k)) <= label_prob (o_n (ps_o P)) (o_sigma (ps_o P)) (o_b (ps_o P)) (fst k) (F' (snd k)).
Proof. exact mode_more_ord. Qed.
Print Assumptions C129_ordinal.
Theorem C129_top : forall sp P y n B i F F', separated (ps_o P) -> (2 <= o_n (ps_o P))%nat -> mode sp P y n B F -> mode sp P (more_ord y (o_n (ps_o P), i)) n B F' -> F i <= F' i.
Proof. exact mode_top. Qed.
Print Assumptions C129_top.
Theorem C129_bottom : forall sp P y n B i F F', separated (ps_o P) -> (2 <= o_n (ps_o P))%nat -> mode sp P y n B F -> mode sp P (more_ord y (1%nat, i)) n B F' -> F' i <= F i.
Proof. exact mode_bottom. Qed.
Print Assumptions C129_bottom.
Theorem C129_rating : forall sp P y n B a F F', mode sp P y n B F -> mode sp P (more_abs y a) n B F' ->
  rating_ll sp (a_v (ps_a P)) (a_sigma (ps_a P)) (fst a) (F (snd a)) <= rating_ll sp (a_v (ps_a P)) (a_sigma (ps_a P)) (fst a) (F' (snd a)).
Proof. exact mode_more_abs. Qed.
Print Assumptions C129_rating.
(** where find_mode stands still *)
Theorem C129_settled : forall sp P n K L inv, good_probits sp P -> 0 < p_sigma (ps_p P) -> symmetric n K -> chol n K = Some L -> inverts_all inv -> forall r p F F', well_formed n (p :: r) -> proper p -> settled sp P r n L inv F -> settled sp P (p :: r) n L inv F' -> margin (entries F) p < margin (entries F') p.
Proof. exact settled_more. Qed.
Print Assumptions C129_settled.
(** the comparison is repeated *)
Example C129_ex : exists B F F', right_inverse 2 ex_K B /\ mode sp_ex ex_P ex_yd 2 B F /\ mode sp_ex ex_P (more ex_yd (1%Z, 0%nat, 1%nat)) 2 B F' /\ F 1%nat - F 0%nat < F' 1%nat - F' 0%nat.
Proof.
  destruct ex_chol as [L [B [_ EB]]]. destruct (C127_exists sp_ex ex_P 2 ex_yd ex_good ex_yd_good (fun _ => ex_separated) ex_K B ex_sym ex_pdK EB) as [F M].
  assert (G : good_labels ex_P 2 (more ex_yd (1%Z, 0%nat, 1%nat))).
  { destruct ex_yd_good as [_ GO]. split; [|exact GO]. intros r H. injection H as <-. intros p [<- |[<- |[]]]; cbn; (split; [lia|]); (split; [lia|now left]). }
  destruct (C127_exists sp_ex ex_P 2 _ ex_good G (fun _ => ex_separated) ex_K B ex_sym ex_pdK EB) as [F' M']. exists B, F, F'. do 3 (split; [assumption|]).
  assert (T := C129_strict sp_ex ex_P ex_yd 2 ex_K B (1%Z, 0%nat, 1%nat) F F' ex_good ex_sigma ex_yd_good ex_yd_discrete ex_wf ltac:(discriminate) ex_sym ex_pdK EB M M').
  unfold margin, dk_of, u_of, v_of in T. cbn [fst snd] in T. lra.
Qed.
(** point 0 gets the lowest label *)
Example C129_ordinal_ex : exists B F F', right_inverse 2 ex_K B /\ mode sp_ex ex_P ex_yd 2 B F /\ mode sp_ex ex_P (more_ord ex_yd (1%nat, 0%nat)) 2 B F' /\ F' 0%nat <= F 0%nat.
Proof.
  destruct ex_chol as [L [B [_ EB]]]. destruct (C127_exists sp_ex ex_P 2 ex_yd ex_good ex_yd_good (fun _ => ex_separated) ex_K B ex_sym ex_pdK EB) as [F M].
  assert (G : good_labels ex_P 2 (more_ord ex_yd (1%nat, 0%nat))).
  { destruct ex_yd_good as [GR _]. split; [exact GR|]. split; [|intros a H; discriminate H]. intros o H. injection H as <-. split; [|split].
    - constructor; [intros [H|[]]; discriminate H|]. constructor; [intros []|constructor].
    - intros p [<- |[<- |[]]]; cbn; lia.
    - intros p [<- |[<- |[]]]; cbn; lia. }
  destruct (C127_exists sp_ex ex_P 2 _ ex_good G (fun _ => ex_separated) ex_K B ex_sym ex_pdK EB) as [F' M']. exists B, F, F'. do 3 (split; [assumption|]).
  exact (C129_bottom sp_ex ex_P ex_yd 2 B 0%nat F F' ex_separated (le_n 2) M M').
Qed.
(** point 0 is rated 1/4 *)
Example C129_rating_ex : exists B F F', right_inverse 2 ex_K B /\ mode sp_ex ex_P ex_yd 2 B F /\ mode sp_ex ex_P (more_abs ex_yd (1 / 4, 0%nat)) 2 B F'.
Proof.
  destruct ex_chol as [L [B [_ EB]]]. destruct (C127_exists sp_ex ex_P 2 ex_yd ex_good ex_yd_good (fun _ => ex_separated) ex_K B ex_sym ex_pdK EB) as [F M].
  destruct (C127_exists sp_ex ex_P 2 ex_y ex_good ex_labels (fun _ => ex_separated) ex_K B ex_sym ex_pdK EB) as [F' M']. exists B, F, F'. do 2 (split; [assumption|]). exact M'.
Qed.

(** C130: symmetries *)
Theorem C130_contrary : forall sp P n r B F, mode sp P (only (map contrary r)) n B F <-> mode sp P (only r) n B (fun i => - F i).
Proof. exact mode_contrary. Qed.
Print Assumptions C130_contrary.
Theorem C130_exchanged : forall sp P n r B F, mode sp P (only (map exchanged r)) n B F <-> mode sp P (only r) n B F.
Proof. exact mode_exchanged. Qed.
Print Assumptions C130_exchanged.
Theorem C130_order : forall sp P n r r' B F, Permutation r r' -> mode sp P (only r) n B F -> mode sp P (only r') n B F.
Proof. exact mode_perm. Qed.
Print Assumptions C130_order.
Theorem C130_units : forall sp P n r K B B' c F, good_probits sp P -> c <> 0 -> symmetric n K -> pd n K -> right_inverse n K B -> right_inverse n (fun i j => c ^ 2 * K i j) B' ->
  (mode sp (with_noise P (c * p_sigma (ps_p P))) (only r) n B' (fun i => c * F i) <-> mode sp P (only r) n B F).
Proof. exact mode_units. Qed.
Print Assumptions C130_units.
(** where find_mode stands still *)
Theorem C130_settled_contrary : forall sp P n K L inv, good_probits sp P -> symmetric n K -> chol n K = Some L -> inverts_all inv -> forall r F, well_formed n r -> (settled sp P (map contrary r) n L inv (map Ropp F) <-> settled sp P r n L inv F).
Proof. exact settled_contrary. Qed.
Print Assumptions C130_settled_contrary.
Theorem C130_settled_exchanged : forall sp P n K L inv, good_probits sp P -> symmetric n K -> chol n K = Some L -> inverts_all inv -> forall r F, well_formed n r -> (settled sp P (map exchanged r) n L inv F <-> settled sp P r n L inv F).
Proof. exact settled_exchanged. Qed.
Print Assumptions C130_settled_exchanged.
Theorem C130_settled_order : forall sp P n K L inv, good_probits sp P -> symmetric n K -> chol n K = Some L -> inverts_all inv -> forall r r' F, well_formed n r -> Permutation r r' -> settled sp P r n L inv F -> settled sp P r' n L inv F.
Proof. exact settled_order. Qed.
Print Assumptions C130_settled_order.
Theorem C130_settled_units : forall sp P n r K L L' inv c F, good_probits sp P -> 0 < p_sigma (ps_p P) -> symmetric n K -> chol n K = Some L -> inverts_all inv -> well_formed n r -> 0 < c ->
  chol n (fun i j => c ^ 2 * K i j) = Some L' -> (settled sp (with_noise P (c * p_sigma (ps_p P))) r n L' inv (map (Rmult c) F) <-> settled sp P r n L inv F).
Proof. exact settled_units. Qed.
Print Assumptions C130_settled_units.
Example C130_ex : (exists F, mode sp_ex ex_P (only ex_r) 2 unit_prior F) /\ 2 <> 0 /\ symmetric 2 unit_prior /\ pd 2 unit_prior /\ right_inverse 2 unit_prior unit_prior /\
  right_inverse 2 (fun i j => 2 ^ 2 * unit_prior i j) (fun i j => unit_prior i j / 4) /\ Permutation ex_opp (map exchanged ((-1, 1%nat, 0%nat)%Z :: (1%Z, 1%nat, 0%nat) :: nil)).
Proof.
  split; [apply (C127_exists sp_ex ex_P 2 (only ex_r) ex_good ex_only (fun H => False_ind _ (H eq_refl)) unit_prior unit_prior (unit_sym 2) (unit_pd 2) (unit_inverse 2))|].
  split; [lra|]. split; [apply unit_sym|]. split; [apply unit_pd|]. split; [apply unit_inverse|]. split; [|apply Permutation_refl].
  intros [|[|i]] [|[|j]] Hi Hj; try lia; unfold unit_prior; cbn; field.
Qed.

(** C131: answers without a contradiction are all respected *)
Theorem C131_chain_refuted : forall sp P, good_probits sp P -> 0 < p_sigma (ps_p P) -> exists N0, forall N, (N0 <= N)%nat -> consistent (beaten_once N) /\ (exists F, mode sp P (only (beaten_once N)) (N + 2) unit_prior F) /\
  forall F, mode sp P (only (beaten_once N)) (N + 2) unit_prior F -> ~ agrees F (last_pair N).
Proof. exact chain_broken. Qed.
Print Assumptions C131_chain_refuted.
(** thirteen points beat one point, which beats a last one; noise of at least 1 *)
Theorem C131_settled_refuted : forall sp P L inv, good_probits sp P -> 1 <= p_sigma (ps_p P) -> chol 15 unit_prior = Some L -> inverts_all inv ->
  consistent (beaten_once 13) /\ (exists F, settled sp P (beaten_once 13) 15 L inv F) /\ forall F, settled sp P (beaten_once 13) 15 L inv F -> ~ agrees (entries F) (last_pair 13).
Proof. exact settled_chain. Qed.
Print Assumptions C131_settled_refuted.
Example C131_refuted_ex : exists L, chol 15 unit_prior = Some L /\ 1 <= p_sigma (ps_p ex_P) /\ inverts_all safe_inv.
Proof. destruct (chol_complete 15 unit_prior (unit_sym 15) (unit_pd 15)) as [L EL]. exists L. split; [exact EL|]. split; [cbn; lra|apply safe_routine]. Qed.
Theorem C131_winner_partial : forall sp P n r K B w F, 0 < p_sigma (ps_p P) -> well_formed n r -> symmetric n K -> pd n K -> right_inverse n K B -> independent n K ->
  (forall p, In p r -> wins w p /\ proper p) -> mode sp P (only r) n B F -> forall p, In p r -> agrees F p.
Proof. exact winner_respected. Qed.
Print Assumptions C131_winner_partial.
Theorem C131_settled_winner_partial : forall sp P n r K L inv w F, good_probits sp P -> 0 < p_sigma (ps_p P) -> symmetric n K -> chol n K = Some L -> inverts_all inv -> well_formed n r -> independent n K ->
  (forall p, In p r -> wins w p /\ proper p) -> settled sp P r n L inv F -> forall p, In p r -> agrees (entries F) p.
Proof. exact settled_winner. Qed.
Print Assumptions C131_settled_winner_partial.
(** point 2 wins against points 0 and 1 *)
Definition ex_win : list pair := (1%Z, 0%nat, 2%nat) :: (-1, 2%nat, 1%nat)%Z :: nil.
Lemma ex_win_wf : well_formed 3 ex_win.
Proof. intros p [<- |[<- |[]]]; cbn; (split; [lia|]); (split; [lia|]); [now left|now right]. Qed.
Example C131_ex : exists F, mode sp_ex ex_P (only ex_win) 3 unit_prior F /\ F 0%nat < F 2%nat /\ F 1%nat < F 2%nat.
Proof.
  destruct (C127_exists sp_ex ex_P 3 (only ex_win) ex_good (only_good ex_P 3 ex_win ex_win_wf) (fun H => False_ind _ (H eq_refl)) unit_prior unit_prior (unit_sym 3) (unit_pd 3) (unit_inverse 3)) as [F M]. exists F. split; [exact M|].
  assert (A := C131_winner_partial sp_ex ex_P 3 ex_win unit_prior unit_prior 2%nat F ex_sigma ex_win_wf (unit_sym 3) (unit_pd 3) (unit_inverse 3)).
  assert (I : independent 3 unit_prior) by (intros i j _ _ N; unfold unit_prior; now rewrite (proj2 (Nat.eqb_neq i j))).
  assert (W : forall p, In p ex_win -> wins 2 p /\ proper p) by (intros p [<- |[<- |[]]]; (split; [|discriminate]); [left|right]; split; reflexivity).
  specialize (A I W M). destruct (A _ (or_introl eq_refl)) as [[_ T]|[T _]]; [|unfold dk_of in T; cbn in T; lra]. destruct (A _ (or_intror (or_introl eq_refl))) as [[T' _]|[_ T']]; [unfold dk_of in T'; cbn in T'; lra|]. split; assumption.
Qed.

(** C132: predictions of a model at the mode *)
Theorem C132_mean : forall sp P inv k d dm r B X, good_probits sp P -> well_formed (length (pX d)) r -> separate k X (pX d) -> dim dm X -> dim dm (pX d) -> X <> nil -> pX d <> nil ->
  kcov k (pX d) (pX d) = Ok (pK d) -> pd (length (pX d)) (mat_at (pK d)) -> right_inverse (length (pX d)) (mat_at (pK d)) B ->
  mode sp P (only r) (length (pX d)) B (entries (pF d)) ->
  exists mu var, pgp_predict inv k (Some d) X = Ok (mu, var) /\ length mu = length X /\ forall i, (i < length X)%nat ->
    nth i mu 0 = rsum (map (fun p => pull (p_sigma (ps_p P)) (entries (pF d)) p * margin (fun a => kcall k (pt X i) (pt (pX d) a)) p) r).
Proof. exact mode_predict. Qed.
Print Assumptions C132_mean.
(** where find_mode stands still *)
Theorem C132_settled : forall sp P inv inv' k d dm r L X, good_probits sp P -> well_formed (length (pX d)) r -> separate k X (pX d) -> dim dm X -> dim dm (pX d) -> X <> nil -> pX d <> nil ->
  kcov k (pX d) (pX d) = Ok (pK d) -> chol (length (pX d)) (mat_at (pK d)) = Some L -> inverts_all inv' -> settled sp P r (length (pX d)) L inv' (pF d) ->
  exists mu var, pgp_predict inv k (Some d) X = Ok (mu, var) /\ length mu = length X /\ forall i, (i < length X)%nat ->
    nth i mu 0 = rsum (map (fun p => pull (p_sigma (ps_p P)) (entries (pF d)) p * margin (fun a => kcall k (pt X i) (pt (pX d) a)) p) r).
Proof. exact settled_predict. Qed.
Print Assumptions C132_settled.
Theorem C132_one : forall sp P inv k d dm p m B X, good_probits sp P -> 0 < p_sigma (ps_p P) -> well_formed (length (pX d)) (p :: nil) -> dk_of p = 1 -> separate k X (pX d) -> dim dm X -> dim dm (pX d) -> X <> nil -> pX d <> nil ->
  kcov k (pX d) (pX d) = Ok (pK d) -> pd (length (pX d)) (mat_at (pK d)) -> right_inverse (length (pX d)) (mat_at (pK d)) B ->
  mode sp P (only (repeat p (S m))) (length (pX d)) B (entries (pF d)) ->
  exists mu var c, pgp_predict inv k (Some d) X = Ok (mu, var) /\ 0 < c /\ forall i, (i < length X)%nat ->
    nth i mu 0 = c * (kcall k (pt X i) (pt (pX d) (v_of p)) - kcall k (pt X i) (pt (pX d) (u_of p))).
Proof. exact mode_predict_one. Qed.
Print Assumptions C132_one.
(** two points with a linear kernel; the model stores the mode for one comparison *)
Example C132_ex : exists d B, pX d = ex_Y /\ kcov ex_k (pX d) (pX d) = Ok (pK d) /\ pd (length (pX d)) (mat_at (pK d)) /\ right_inverse (length (pX d)) (mat_at (pK d)) B /\
  separate ex_k ((1 :: 1 :: nil) :: nil) (pX d) /\ well_formed (length (pX d)) ex_r /\ mode sp_ex ex_P (only ex_r) (length (pX d)) B (entries (pF d)).
Proof.
  destruct C107_ex as [EK [PK [_ [_ [HQ _]]]]]. change (length (pX ex_fit)) with 2%nat in PK.
  assert (SK : symmetric 2 (mat_at (pK ex_fit))) by (intros i j Hi Hj; assert (HK := stored_K ex_k (pX ex_fit) (pK ex_fit) (separate_no_zeroed _ _ _ HQ) ltac:(discriminate) EK); rewrite !HK by (cbn; assumption); change (pX ex_fit) with ex_Y; rewrite <- !ex_cov by assumption; destruct i as [|[|i]], j as [|[|j]]; try lia; reflexivity).
  destruct (chol_complete 2 _ SK PK) as [L EL]. assert (IB := k_inv_inverse 2 _ L SK EL).
  destruct (C127_exists sp_ex ex_P 2 (only ex_r) ex_good ex_only (fun H => False_ind _ (H eq_refl)) _ _ SK PK IB) as [F M].
  exists (Build_pgp_data ex_Y (map F (seq 0 2)) (pW ex_fit) ex_M), (k_inv 2 L). cbn [pX pK pF pW]. change (length ex_Y) with 2%nat.
  split; [reflexivity|]. split; [exact EK|]. split; [exact PK|]. split; [exact IB|]. split; [exact HQ|]. split; [exact ex_wf|].
  apply (mode_ext sp_ex ex_P 2 (only ex_r) _ ex_only (only_discrete ex_P ex_r) F); auto. intros i Hi. now rewrite entries_map.
Qed.
