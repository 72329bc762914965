(** Theorems C43, C44, C47 and the ordinal part of C46. *)
From Verif Require Import M_OrdProbit S_PrefProbit S_OrdProbit P_OrdProbit.
From Coquelicot Require Import Coquelicot.
From Coq Require Import Reals Lra Lia.
From Verif Require Import M_OrdProbit S_PrefProbit S_OrdProbit P_Normal P_OrdProbit P_OrdProbit2.
Local Open Scope R_scope.

(** C43 *)
Theorem C43_set_hyper : forall o sg b, (2 <= o_n o)%nat -> 0 < sg -> exists o', ord_set o (sg :: b :: nil) = Ok o' /\ from_scalar o' /\ o_n o' = o_n o.
Proof. exact set_from_scalar. Qed.
Print Assumptions C43_set_hyper.
Theorem C43_ordered : forall o, from_scalar o -> ordered o.
Proof. exact from_scalar_ordered. Qed.
Print Assumptions C43_ordered.
Theorem C43_distribution : forall o u F, ordered o -> 0 < o_sigma o -> (1 <= o_n o)%nat ->
  exists l, likelihood_each o (map (fun k => (k, u)) (seq 1 (o_n o))) F = Ok l /\ length l = o_n o /\ (forall x, In x l -> 0 <= x <= 1) /\ rsum l = 1.
Proof. exact ord_distribution. Qed.
Print Assumptions C43_distribution.
Theorem C43_shift : forall o u F G k, 0 < o_sigma o -> (1 <= o_n o)%nat -> F u <= G u -> forall lF lG,
  likelihood_each o (map (fun k => (k, u)) (seq 1 (o_n o))) F = Ok lF -> likelihood_each o (map (fun k => (k, u)) (seq 1 (o_n o))) G = Ok lG -> rsum (firstn k lG) <= rsum (firstn k lF).
Proof. exact ord_shift. Qed.
Print Assumptions C43_shift.
Theorem C43_probability : forall o y F, valid o y -> (forall p, In p y -> label_unclipped (o_n o) (o_sigma o) (o_b o) (fst p) (F (snd p))) ->
  likelihood_each o y F = Ok (map (fun p => label_prob (o_n o) (o_sigma o) (o_b o) (fst p) (F (snd p))) y).
Proof. exact ord_prob. Qed.
Print Assumptions C43_probability.
Theorem C43_zero_label : forall o eps y F, (exists p, In p y /\ fst p = 0%nat) -> likelihood_each o y F = Raise GenericException /\ ord_derivatives o eps y F = Raise GenericException.
Proof. exact ord_zero_label. Qed.
Print Assumptions C43_zero_label.
(** set_b takes breakpoints in any order: a likelihood can be negative *)
Theorem C43_vector_refuted : exists o l, ord_set_bs (mkOrd 3 1 nil) (1 :: 0 :: nil) = Ok o /\ likelihood_each o ((2%nat, 0%nat) :: nil) (fun _ => 0) = Ok l /\ nth 0 l 0 < 0.
Proof. exact unordered_negative. Qed.
Print Assumptions C43_vector_refuted.
Definition ex_ord : ord_probit := ord_set_b (mkOrd 5 (1 / 10) nil) (-1).
Lemma ex_ord_scalar : from_scalar ex_ord.
Proof. split; [cbn; lia|]. split; [cbn; lra|]. exists (-1). reflexivity. Qed.
Example C43_ex : exists l, likelihood_each ex_ord (map (fun k => (k, 3%nat)) (seq 1 5)) (fun i => INR i) = Ok l /\ rsum l = 1.
Proof. destruct (C43_distribution ex_ord 3 (fun i => INR i) (C43_ordered _ ex_ord_scalar)) as [l [E [_ [_ T]]]]; [cbn; lra|cbn; lia|]. exists l. auto. Qed.

(** C44 *)
Theorem C44_gradient : forall o eps y F, o_sigma o <> 0 -> 0 < eps -> NoDup (map snd y) -> valid o y ->
  (forall p, In p y -> label_unclipped (o_n o) (o_sigma o) (o_b o) (fst p) (F (snd p)) /\ eps <= label_prob (o_n o) (o_sigma o) (o_b o) (fst p) (F (snd p))) ->
  exists W g, ord_derivatives o eps y F = Ok (W, g, Some (LLo o y F)) /\ forall a, has_partial (LLo o y) a F (g a).
Proof. exact ord_gradient. Qed.
Print Assumptions C44_gradient.
Theorem C44_log_likelihood : forall o y F, valid o y -> (forall p, In p y -> label_unclipped (o_n o) (o_sigma o) (o_b o) (fst p) (F (snd p)) /\ 0 < label_prob (o_n o) (o_sigma o) (o_b o) (fst p) (F (snd p))) ->
  ord_log_likelihood o y F = Ok (Some (LLo o y F)).
Proof. exact ord_log_lik. Qed.
Print Assumptions C44_log_likelihood.
(** an unlikely lowest or highest label: the gradient is never exact, the error is below 1 / |b - f| *)
Theorem C44_unlikely_partial : forall o eps k u F b, (2 <= o_n o)%nat -> 0 < o_sigma o -> 0 < eps <= 1 / 2 ->
  (k = 1%nat /\ b = nth 0 (o_b o) 0) \/ (k = o_n o /\ b = nth (o_n o - 2) (o_b o) 0) -> label_unclipped (o_n o) (o_sigma o) (o_b o) k (F u) ->
  label_prob (o_n o) (o_sigma o) (o_b o) k (F u) < eps ->
  exists W g p D, ord_derivatives o eps ((k, u) :: nil) F = Ok (W, g, p) /\ has_partial (LLo o ((k, u) :: nil)) u F D /\ 0 < Rabs (g u - D) < / Rabs (b - F u).
Proof. exact tail_gradient. Qed.
Print Assumptions C44_unlikely_partial.
(** an unlikely label between the lowest and the highest: too small towards the label, by less than 1 / (sigma^2 |gradient|), hence by less
    than 1 / (distance from the value to the label's interval) *)
Theorem C44_middle_partial : forall o eps k u F, (1 < k < o_n o)%nat -> 0 < o_sigma o -> nth (k - 2) (o_b o) 0 < nth (k - 1) (o_b o) 0 ->
  label_unclipped (o_n o) (o_sigma o) (o_b o) k (F u) -> label_prob (o_n o) (o_sigma o) (o_b o) k (F u) < eps -> 2 * F u <> nth (k - 2) (o_b o) 0 + nth (k - 1) (o_b o) 0 ->
  exists W g p D, ord_derivatives o eps ((k, u) :: nil) F = Ok (W, g, p) /\ has_partial (LLo o ((k, u) :: nil)) u F D /\ 0 < o_sigma o ^ 2 * (D * (D - g u)) < 1 /\
    (F u < nth (k - 2) (o_b o) 0 -> Rabs (g u - D) < / (nth (k - 2) (o_b o) 0 - F u)) /\ (nth (k - 1) (o_b o) 0 < F u -> Rabs (g u - D) < / (F u - nth (k - 1) (o_b o) 0)).
Proof. exact middle_gradient. Qed.
Print Assumptions C44_middle_partial.
(** a label with a narrow interval: next to the middle of the interval the error is larger than any number *)
Theorem C44_narrow_refuted : forall s eps M, 0 < s -> 0 < eps -> 0 < M -> exists w f W g p D, 0 < f < w /\ w <= s /\
  ord_derivatives (mkOrd 3 s (0 :: w :: nil)) eps ((2%nat, 0%nat) :: nil) (fun _ => f) = Ok (W, g, p) /\ has_partial (LLo (mkOrd 3 s (0 :: w :: nil)) ((2%nat, 0%nat) :: nil)) 0 (fun _ => f) D /\ M < Rabs (g 0%nat - D).
Proof. exact narrow_gradient. Qed.
Print Assumptions C44_narrow_refuted.
Example C44_middle_ex : exists W g p D, ord_derivatives (mkOrd 3 1 (0 :: 1 :: nil)) (1 / 2) ((2%nat, 0%nat) :: nil) (fun _ => -3) = Ok (W, g, p) /\
  has_partial (LLo (mkOrd 3 1 (0 :: 1 :: nil)) ((2%nat, 0%nat) :: nil)) 0 (fun _ => -3) D /\ 0 < 1 ^ 2 * (D * (D - g 0%nat)) < 1 /\ Rabs (g 0%nat - D) < / 3.
Proof.
  destruct (C44_middle_partial (mkOrd 3 1 (0 :: 1 :: nil)) (1 / 2) 2 0 (fun _ => -3)) as [W [g [p [D [H1 [H2 [H3 [H4 _]]]]]]]].
  - cbn; lia.
  - cbn; lra.
  - cbn; lra.
  - unfold label_unclipped. cbn. split; intros _; lra.
  - rewrite middle_prob by (cbn; lia). unfold mass, zlo, zhi. cbn. assert (A := ndtr_range ((1 - -3) / 1)). assert (B := ndtr_increasing 0 ((0 - -3) / 1) ltac:(lra)). rewrite ndtr_0 in B. lra.
  - cbn. lra.
  - exists W, g, p, D. split; [exact H1|]. split; [exact H2|]. split; [exact H3|]. cbn in H4. replace (/ 3) with (/ (0 - -3)) by (f_equal; lra). apply H4. lra.
Qed.
(** W is negative where minus the second derivative is positive *)
Theorem C44_W_refuted : forall s eps, 0 < s -> 0 < eps <= 1 / 2 -> exists W g p,
  ord_derivatives (mkOrd 2 s (0 :: nil)) eps ((2%nat, 0%nat) :: nil) (fun _ => 0) = Ok (W, g, p) /\ W 0%nat 0%nat < 0 /\
  ~ has_partial (partial 0 (LLo (mkOrd 2 s (0 :: nil)) ((2%nat, 0%nat) :: nil))) 0 (fun _ => 0) (- W 0%nat 0%nat).
Proof. exact W_wrong. Qed.
Print Assumptions C44_W_refuted.
Example C44_ex : exists W g, ord_derivatives (mkOrd 2 1 (0 :: nil)) (1 / 10) ((2%nat, 4%nat) :: (1%nat, 0%nat) :: nil) (fun _ => 0) = Ok (W, g, Some (LLo (mkOrd 2 1 (0 :: nil)) ((2%nat, 4%nat) :: (1%nat, 0%nat) :: nil) (fun _ => 0))) /\
  forall a, has_partial (LLo (mkOrd 2 1 (0 :: nil)) ((2%nat, 4%nat) :: (1%nat, 0%nat) :: nil)) a (fun _ => 0) (g a).
Proof.
  apply C44_gradient.
  - cbn; lra.
  - lra.
  - cbn. constructor; [intros [H|[]]; discriminate|]. constructor; [intros []|constructor].
  - intros p [<- |[<- |[]]]; cbn; lia.
  - intros p Hp. cbn [o_n o_sigma o_b]. destruct Hp as [<- |[<- |[]]]; cbn [fst snd].
    + split; [apply (bo_unclipped 1 2 0%nat); [lra|lia]|]. rewrite bo_prob2. replace (0 / 1) with 0 by field. rewrite ndtr_0. lra.
    + split; [apply (bo_unclipped 1 1 0%nat); [lra|lia]|]. rewrite bo_prob1. replace (- (0 / 1)) with 0 by field. rewrite ndtr_0. lra.
Qed.
Example C44_unlikely_ex : exists W g p D, ord_derivatives (mkOrd 2 1 (0 :: nil)) (1 / 2) ((1%nat, 0%nat) :: nil) (fun _ => 1) = Ok (W, g, p) /\ has_partial (LLo (mkOrd 2 1 (0 :: nil)) ((1%nat, 0%nat) :: nil)) 0 (fun _ => 1) D /\ 0 < Rabs (g 0%nat - D) < 1.
Proof.
  destruct (C44_unlikely_partial (mkOrd 2 1 (0 :: nil)) (1 / 2) 1 0 (fun _ => 1) 0) as [W [g [p [D [H1 [H2 H3]]]]]].
  - cbn; lia.
  - cbn; lra.
  - lra.
  - left. split; reflexivity.
  - unfold label_unclipped. cbn. split; intros; [lra|lia].
  - cbn [o_n o_sigma o_b]. rewrite bo_prob1. replace (- (1 / 1)) with (-1) by field. assert (K := ndtr_increasing (-1) 0 ltac:(lra)). rewrite ndtr_0 in K. lra.
  - exists W, g, p, D. split; [exact H1|]. split; [exact H2|]. replace (Rabs (0 - 1)) with 1 in H3 by (rewrite Rabs_left; lra). lra.
Qed.

(** C46, ordinal labels: only the last label of a point counts in the gradient and in W *)
Theorem C46_ordinal_last : forall o eps y k u F, valid o (y ++ (k, u) :: nil) -> exists W g p W' g' p', ord_derivatives o eps (y ++ (k, u) :: nil) F = Ok (W, g, p) /\ ord_derivatives o eps ((k, u) :: nil) F = Ok (W', g', p') /\ g u = g' u /\ W u u = W' u u.
Proof. exact ord_last_wins. Qed.
Print Assumptions C46_ordinal_last.
Theorem C46_ordinal_refuted : forall s eps, 0 < s -> 0 < eps <= 1 / 2 -> exists W g p, ord_derivatives (mkOrd 2 s (0 :: nil)) eps ((1%nat, 0%nat) :: (2%nat, 0%nat) :: nil) (fun _ => 0) = Ok (W, g, p) /\
  has_partial (LLo (mkOrd 2 s (0 :: nil)) ((1%nat, 0%nat) :: (2%nat, 0%nat) :: nil)) 0 (fun _ => 0) 0 /\ 0 < g 0%nat.
Proof. exact ord_repeat_wrong. Qed.
Print Assumptions C46_ordinal_refuted.
Example C46_ordinal_ex : valid (mkOrd 3 1 (0 :: 1 :: nil)) (((1%nat, 7%nat) :: (3%nat, 7%nat) :: nil) ++ (2%nat, 7%nat) :: nil).
Proof. intros p [<- |[<- |[<- |[]]]]; cbn; lia. Qed.

(** C47 *)
Theorem C47_scalar : forall o, from_scalar o -> ord_set o (ord_get o) = Ok o.
Proof. exact ord_round_trip. Qed.
Print Assumptions C47_scalar.
Theorem C47_vector_refuted : exists o o' l l', ord_set_bs (mkOrd 4 1 nil) (0 :: 1 :: 5 :: nil) = Ok o /\ ord_set o (ord_get o) = Ok o' /\
  (forall u, label_unclipped 4 1 (0 :: 1 :: 5 :: nil) 2 ((fun _ : nat => 0) u)) /\
  likelihood_each o ((2%nat, 0%nat) :: nil) (fun _ => 0) = Ok l /\ likelihood_each o' ((2%nat, 0%nat) :: nil) (fun _ => 0) = Ok l' /\ nth 0 l 0 < nth 0 l' 0.
Proof. exact ord_vector_lost. Qed.
Print Assumptions C47_vector_refuted.
Example C47_ex : ord_set ex_ord (ord_get ex_ord) = Ok ex_ord /\ nth 3 (o_b ex_ord) 0 = 1.
Proof. split; [apply C47_scalar, ex_ord_scalar|]. cbn. rewrite Rabs_left by lra. field. Qed.
