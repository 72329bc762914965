(** Properties C13-C17: numeric helpers. *)
From Verif Require Import M_RBase M_Util S_Util P_RBase P_Util.
From Coq Require Import Lra.
From Coquelicot Require Import Coquelicot.
From Verif Require Import M_RBase.
Local Open Scope R_scope.

(** C13 *)
Theorem C13_normalize : forall x eps, x <> [] -> 0 < eps -> exists out, normalize_0_1 x eps = Ok out /\ length out = length x /\
  (forall v, In v out -> 0 < v < 1) /\
  (forall i j a b u v, nth_error x i = Some a -> nth_error x j = Some b -> nth_error out i = Some u -> nth_error out j = Some v ->
     ((a < b <-> u < v) /\ (a = b <-> u = v))) /\
  (forall i j a b u v, nth_error x i = Some a -> nth_error x j = Some b -> nth_error out i = Some u -> nth_error out j = Some v ->
     (forall y, In y x -> a <= y <= b) -> u = eps / (b - a + 2 * eps) /\ v = 1 - eps / (b - a + 2 * eps)).
Proof. exact normalize_spec. Qed.
Print Assumptions C13_normalize.
Example C13_ex : exists out, normalize_0_1 [3; 1; 2] (1 / 4) = Ok out /\ nth_error out 1 = Some (1 / 10).
Proof.
  destruct (C13_normalize [3; 1; 2] (1 / 4)) as [out [E [L [_ [_ H]]]]]; [discriminate|lra|]. exists out. split; [exact E|].
  destruct out as [|a [|b [|c [|]]]]; try discriminate. simpl. f_equal.
  destruct (H 1%nat 0%nat 1 3 b a eq_refl eq_refl eq_refl eq_refl) as [K _]; [|rewrite K; lra].
  simpl. intros y Hy. repeat destruct Hy as [<-|Hy]; try lra; tauto.
Qed.

(** C14: the result is the (unique) distribution of the Luce-Shepard rule *)
Theorem C14_choice_distribution : forall r p, r <> [] -> exists out, p_human_choice r p = Ok out /\ luce p r out /\
  forall out', luce p r out' -> out' = out.
Proof. exact p_human_choice_exact. Qed.
Print Assumptions C14_choice_distribution.
Theorem C14_shift_invariant : forall r p c, r <> [] -> p_human_choice (map (fun x => x + c) r) p = p_human_choice r p.
Proof. exact p_human_choice_shift. Qed.
Print Assumptions C14_shift_invariant.
Theorem C14_ranks : forall r p out i j a b pa pb, 0 < p -> p_human_choice r p = Ok out ->
  nth_error r i = Some a -> nth_error r j = Some b -> nth_error out i = Some pa -> nth_error out j = Some pb -> (a < b <-> pa < pb).
Proof. exact p_human_choice_ranks. Qed.
Print Assumptions C14_ranks.
Theorem C14_batch_rows : forall r p, r <> [] -> (forall row, In row r -> row <> []) ->
  p_human_choice_rows r p = mapM (fun row => p_human_choice row p) r.
Proof. exact p_human_choice_rows_spec. Qed.
Print Assumptions C14_batch_rows.
Example C14_ex : p_human_choice [0; 0] 3 = Ok [1 / 2; 1 / 2] /\ luce 3 [0; 0] [1 / 2; 1 / 2].
Proof.
  assert (L : luce 3 [0; 0] [1 / 2; 1 / 2]).
  { split; [reflexivity|]. split; [split|].
    - intros x [<-|[<-|[]]]; lra.
    - simpl. lra.
    - intros i j a b pa pb H1 H2 H3 H4. destruct i as [|[|[|i]]], j as [|[|[|j]]]; try discriminate; simpl in *;
        inversion H1; inversion H2; inversion H3; inversion H4; subst; replace (3 * (0 - 0)) with 0 by lra; rewrite exp_0; lra. }
  split; [|exact L]. destruct (C14_choice_distribution [0; 0] 3) as [out [E [_ U]]]; [discriminate|]. now rewrite (U _ L).
Qed.

(** C15: option [i] is drawn exactly for the uniform numbers of an interval whose length is its probability *)
Theorem C15_sample_interval : forall r p, r <> [] -> exists pdf lo, p_human_choice r p = Ok pdf /\ lo 0%nat = 0 /\ lo (length r) = 1 /\
  (forall i a, nth_error pdf i = Some a -> lo (S i) - lo i = a) /\
  forall u, 0 <= u < 1 -> exists i, sample_human_choice r p u = Ok i /\ (i < length r)%nat /\
    forall j, (j < length r)%nat -> (j = i <-> lo j <= u < lo (S j)).
Proof. exact sample_spec. Qed.
Print Assumptions C15_sample_interval.
Theorem C15_samples : forall r p us, r <> [] -> sample_human_choices r p us = mapM (sample_human_choice r p) us.
Proof. exact samples_spec. Qed.
Print Assumptions C15_samples.
Example C15_ex : sample_human_choice [0; 0] 3 (3 / 4) = Ok 1%nat.
Proof.
  destruct (C15_sample_interval [0; 0] 3) as [pdf [lo [E [L0 [L2 [D S]]]]]]; [discriminate|].
  destruct (S (3 / 4)) as [i [Hi [Hl U]]]; [lra|]. rewrite Hi. f_equal. symmetry. apply U; [simpl; lia|].
  rewrite (proj1 C14_ex) in E. inversion E; subst. assert (D0 := D 0%nat (1 / 2) eq_refl). simpl length in L2. lra.
Qed.

(** C16 *)
Theorem C16_metropolis : forall (X : Type) (ll : X -> option R) prop thr x0 n burn, (forall i, 0 <= thr i < 1) -> exists c : nat -> X,
    c 0%nat = x0 /\ metropolis_hastings ll prop thr x0 n burn = map c (seq (S burn) n) /\
    forall i, mh_step ll (c i) (prop i (c i)) (c (S i)) (thr i).
Proof. exact @mh_spec. Qed.
Print Assumptions C16_metropolis.
Theorem C16_length : forall (X : Type) (ll : X -> option R) prop thr x0 n burn, length (metropolis_hastings ll prop thr x0 n burn) = n.
Proof. exact @mh_length. Qed.
Print Assumptions C16_length.
Example C16_ex : (forall i : nat, 0 <= (fun _ => 1 / 2) i < 1) /\
  metropolis_hastings (fun x : nat => if Nat.leb x 2 then Some 0 else None) (fun _ x => S x) (fun _ => 1 / 2) 0%nat 3 1 = [2; 2; 2]%nat.
Proof.
  split; [intros; lra|]. unfold metropolis_hastings. simpl. unfold accept. replace (0 - 0) with 0 by lra. rewrite exp_0.
  repeat (first [rewrite (proj2 (Rltb_true (1 / 2) 1)) by lra | rewrite (proj2 (Rltb_false (1 / 2) 0)) by lra | rewrite Rminus_0_r | rewrite exp_0]; simpl).
  reflexivity.
Qed.

(** C17 *)
Theorem C17_log_pdf : forall g x k theta, 0 < g k -> 0 < theta -> 1 / 1000000 <= x ->
  0 < pdf_gamma g x k theta /\ log_pdf_gamma g x k theta = Some (ln (pdf_gamma g x k theta)).
Proof. exact log_pdf_spec. Qed.
Print Assumptions C17_log_pdf.
Theorem C17_derivative : forall g x k theta, theta <> 0 -> 1 / 1000000 < x ->
  is_derive (fun y => match log_pdf_gamma g y k theta with Some v => v | None => 0 end) x (d_log_pdf_gamma x k theta).
Proof. exact log_pdf_derive. Qed.
Print Assumptions C17_derivative.
Theorem C17_negative : forall g x k theta, log_pdf_gamma g x k theta = None <-> x < 0.
Proof. exact log_pdf_none. Qed.
Print Assumptions C17_negative.
(** below the clipping point the two do not agree: the log-density is constant there, its "derivative" is not zero *)
Theorem C17_clipped_derivative_refuted : exists g x k theta, 0 < theta /\ 0 < x < 1 / 1000000 /\
  is_derive (fun y => match log_pdf_gamma g y k theta with Some v => v | None => 0 end) x 0 /\ d_log_pdf_gamma x k theta <> 0.
Proof. exists (fun _ => 1), (1 / 2000000), 2, 1. split; [lra|]. split; [lra|]. exact log_pdf_clipped. Qed.
Print Assumptions C17_clipped_derivative_refuted.
Example C17_ex : d_log_pdf_gamma 2 3 4 = 3 / 4 /\ log_pdf_gamma (fun _ => 2) (-1) 3 4 = None.
Proof. split; [unfold d_log_pdf_gamma; rewrite gamma_clip_id; lra|]. apply C17_negative. lra. Qed.
