(** Lemmas about a choice among the values of a matrix. *)
From Verif Require Import M_Base M_RBase M_Fake M_User S_User P_User.
From Coq Require Import Reals Lra Lia List.
Import ListNotations.
Local Open Scope R_scope.

Lemma nth_error_concat {A} (m : list (list A)) w r c : Forall (fun row => length row = w) m -> (c < w)%nat ->
  nth_error (concat m) (r * w + c) = match nth_error m r with Some row => nth_error row c | None => None end.
Proof.
  intros H Hc. revert r. induction H as [|row m Hr Hm IH]; intro r.
  - cbn [concat]. destruct r; [now destruct c|]. cbn [nth_error]. now destruct (S r * w + c)%nat.
  - cbn [concat]. destruct r as [|r]; cbn [nth_error].
    + rewrite nth_error_app1 by lia. reflexivity.
    + rewrite nth_error_app2 by lia. replace (S r * w + c - length row)%nat with (r * w + c)%nat by lia. apply IH.
Qed.
Lemma concat_width {A} (m : list (list A)) w : Forall (fun row => length row = w) m -> length (concat m) = (length m * w)%nat.
Proof. induction 1 as [|row m Hr Hm IH]; [reflexivity|]. cbn [concat length]. rewrite app_length, IH. lia. Qed.
Lemma perfect_choice_matrix f q m w : f q = Ok (Mat m) -> m <> [] -> (0 < w)%nat -> Forall (fun row => length row = w) m ->
  exists r c row x, perfect_choose f q = Ok (r * w + c)%nat /\ (c < w)%nat /\ nth_error m r = Some row /\ nth_error row c = Some x /\
    (forall r' c' row' y, nth_error m r' = Some row' -> nth_error row' c' = Some y -> y <= x /\ ((r' < r)%nat \/ (r' = r /\ c' < c)%nat -> y < x)).
Proof.
  intros E Hm Hw Hs. unfold perfect_choose. rewrite E. cbn [bind flatten].
  assert (HL := concat_width m w Hs).
  destruct (argmax_first (concat m)) as [i [-> [v [Hv [Hmax Hfirst]]]]].
  { intro K. rewrite K in HL. cbn in HL. destruct m; [contradiction|]. cbn in HL. lia. }
  assert (Hi : i = (i / w * w + i mod w)%nat) by (rewrite Nat.mul_comm; apply Nat.div_mod; lia).
  assert (Hc : (i mod w < w)%nat) by (apply Nat.mod_upper_bound; lia).
  rewrite Hi in Hv. rewrite (nth_error_concat m w _ _ Hs Hc) in Hv.
  destruct (nth_error m (i / w)) as [row|] eqn:Er; [|discriminate].
  exists (i / w)%nat, (i mod w)%nat, row, v. rewrite <- Hi. split; [reflexivity|]. split; [exact Hc|]. split; [exact Er|]. split; [exact Hv|].
  intros r' c' row' y H1 H2.
  assert (Hc' : (c' < w)%nat).
  { rewrite Forall_forall in Hs. rewrite <- (Hs row' (nth_error_In _ _ H1)). apply nth_error_Some. congruence. }
  assert (Hy : nth_error (concat m) (r' * w + c') = Some y) by (rewrite (nth_error_concat m w _ _ Hs Hc'), H1; exact H2).
  split; [exact (Hmax _ _ Hy)|]. intro Hb. apply (Hfirst (r' * w + c')%nat); [|exact Hy].
  rewrite Hi. destruct Hb as [Hb|[-> Hb]]; nia.
Qed.

Lemma new_user_rates f beta sigma bot top q : human_rate (huser_init f beta sigma bot top) 0 q = perfect_rate f q.
Proof.
  assert (E : forall v, sigmoid 1 0 (v * 4 + 0 + sigma * 0) = sigmoid 4 0 v) by (intro v; unfold sigmoid; do 3 f_equal; lra).
  unfold human_rate, scaled, perfect_rate, huser_init. cbn [hu_f hu_sigma hu_k hu_b]. destruct (f q) as [y|e]; cbn [bind]; [|reflexivity]. f_equal.
  destruct y; cbn [amap]; f_equal; rewrite ?map_map; try apply E; apply map_ext; intro; rewrite ?map_map; try apply E; apply map_ext; intro; rewrite ?map_map; try apply E; apply map_ext; intro; apply E.
Qed.
