(** Lemmas about the names of recorded states. *)
From Coq Require Import String Ascii List Arith Lia.
From Verif Require Import M_Base M_Names S_Names.
Import ListNotations.
Local Open Scope nat_scope.
Local Open Scope list_scope.

Lemma fold_value ds : forall a, fold_left (fun a d => 10 * a + d) ds a = a * 10 ^ length ds + value ds.
Proof.
  unfold value. induction ds as [|d ds IH]; intro a; cbn [fold_left length]; [cbn; lia|].
  rewrite IH, (IH (10 * 0 + d)). rewrite Nat.pow_succ_r'. nia.
Qed.
Lemma value_cons d ds : value (d :: ds) = d * 10 ^ length ds + value ds.
Proof. unfold value at 1. cbn [fold_left]. rewrite fold_value. reflexivity. Qed.
Lemma value_snoc ds d : value (ds ++ [d]) = 10 * value ds + d.
Proof. unfold value. rewrite fold_left_app. reflexivity. Qed.
Lemma value_lt ds : Forall (fun d => d < 10) ds -> value ds < 10 ^ length ds.
Proof.
  induction 1 as [|d ds Hd H IH]; [cbn; lia|]. rewrite value_cons. cbn [length]. rewrite Nat.pow_succ_r'. nia.
Qed.
Lemma value_zeros j ds : value (repeat 0 j ++ ds) = value ds.
Proof. induction j as [|j IH]; [reflexivity|]. cbn [repeat app]. rewrite value_cons, IH. lia. Qed.
Lemma div10_lt n : 10 <= n -> n / 10 < n.
Proof. intro H. apply Nat.div_lt; lia. Qed.
Lemma digits_value f : forall n, n < f -> value (digits f n) = n.
Proof.
  induction f as [|f IH]; intros n H; [lia|]. cbn [digits]. destruct (n <? 10) eqn:E; [unfold value; cbn [fold_left]; lia|].
  apply Nat.ltb_ge in E. rewrite value_snoc, IH by (pose proof (div10_lt n E); lia).
  rewrite <- Nat.div_mod by lia. reflexivity.
Qed.
Lemma digits_small f : forall n, Forall (fun d => d < 10) (digits f n).
Proof.
  induction f as [|f IH]; intro n; cbn [digits]; [constructor|]. destruct (n <? 10) eqn:E.
  - apply Nat.ltb_lt in E. auto.
  - apply Forall_app. split; [apply IH|]. constructor; [apply Nat.mod_upper_bound; lia|constructor].
Qed.
Lemma digits_nonempty f n : digits (S f) n <> [].
Proof. cbn [digits]. destruct (n <? 10); [discriminate|]. intro H. destruct (app_eq_nil _ _ H). discriminate. Qed.
Lemma digits_len f : forall n w, n < f -> n < 10 ^ w -> length (digits f n) <= Nat.max 1 w.
Proof.
  induction f as [|f IH]; intros n w H Hw; [lia|]. cbn [digits]. destruct (n <? 10) eqn:E; [change (length [n]) with 1; lia|].
  apply Nat.ltb_ge in E. rewrite app_length. change (length [n mod 10]) with 1.
  destruct w as [|[|w]]; [rewrite Nat.pow_0_r in Hw; lia|rewrite Nat.pow_1_r in Hw; lia|].
  assert (n / 10 < 10 ^ S w). { apply Nat.div_lt_upper_bound; [lia|]. rewrite <- Nat.pow_succ_r'. exact Hw. }
  assert (Hd := div10_lt n E). specialize (IH (n / 10) (S w) ltac:(lia) H0). lia.
Qed.
Lemma str_inj i j : str i = str j -> i = j.
Proof.
  unfold str. intro H. assert (digits (S i) i = digits (S j) j).
  { revert H. generalize (digits (S i) i), (digits (S j) j). induction l as [|x l IH]; intros [|y m] H; cbn [map] in H; try discriminate; [reflexivity|].
    injection H as H1 H2. f_equal; [lia|auto]. }
  rewrite <- (digits_value (S i) i), <- (digits_value (S j) j), H0 by lia. reflexivity.
Qed.
Lemma lex_value s : forall t u v, length s = length t -> Forall (fun d => d < 10) s -> Forall (fun d => d < 10) t -> value s < value t ->
  sorted_before (map (fun d => 48 + d) s ++ u) (map (fun d => 48 + d) t ++ v).
Proof.
  induction s as [|c s IH]; intros [|d t] u v L Hs Ht H; cbn [length] in L; [cbn in H; lia|lia|lia|].
  inversion Hs as [|? ? Hc Hs']; subst. inversion Ht as [|? ? Hd Ht']; subst. rewrite !value_cons in H. injection L as L.
  cbn [map app]. pose proof (value_lt s Hs'). pose proof (value_lt t Ht'). rewrite L in *.
  destruct (Nat.lt_trichotomy c d) as [C|[->|C]].
  - apply sb_lt. lia.
  - apply sb_eq. apply IH; auto. lia.
  - exfalso. nia.
Qed.
Lemma sb_prefix p s t : sorted_before s t -> sorted_before (p ++ s) (p ++ t).
Proof. intro H. induction p as [|c p IH]; [exact H|]. cbn [app]. apply sb_eq, IH. Qed.
Lemma sb_asym s t : sorted_before s t -> ~ sorted_before t s.
Proof. induction 1; intro K; inversion K; subst; try lia. auto. Qed.

Lemma names_distinct folder i j : viz_file folder (header i) = viz_file folder (header j) \/ picture_file folder (header i) = picture_file folder (header j) -> i = j.
Proof.
  unfold viz_file, picture_file, header. intros [H|H]; apply app_inv_head, app_inv_tail, app_inv_head in H; apply str_inj, H.
Qed.
Lemma kinds_distinct folder s t : viz_file folder s <> picture_file folder t.
Proof.
  unfold viz_file, picture_file. intro H. apply app_inv_head in H. apply (f_equal (fun l => last l 0)) in H.
  assert (E : forall (p q : list nat) x, last (p ++ q ++ [x]) 0 = x) by (intros; rewrite app_assoc; apply last_last).
  change (codes "_viz" ++ codes ".npz")%list with ([95; 118; 105; 122; 46; 110; 112] ++ [122]) in H.
  change (codes "_active_samples.jpg") with (removelast (codes "_active_samples.jpg") ++ [103]) in H.
  rewrite !E in H. discriminate.
Qed.
Lemma same_length_order folder i j : length (str i) = length (str j) -> i < j -> sorted_before (viz_file folder (header i)) (viz_file folder (header j)).
Proof.
  intros L H. unfold viz_file, header. rewrite <- !app_assoc. do 2 apply sb_prefix. unfold str in *. rewrite !map_length in L.
  apply lex_value; auto using digits_small. rewrite !digits_value by lia. exact H.
Qed.
Lemma str_digit d : d < 10 -> str d = [48 + d].
Proof. intro H. unfold str. cbn [digits]. apply Nat.ltb_lt in H. rewrite H. reflexivity. Qed.
Lemma first_ten folder i j : i < j -> j < 10 -> sorted_before (viz_file folder (header i)) (viz_file folder (header j)).
Proof. intros H K. apply same_length_order; [rewrite !str_digit by lia; reflexivity|exact H]. Qed.
Lemma later_first folder n : 10 <= n -> exists m, m < 10 /\ sorted_before (viz_file folder (header n)) (viz_file folder (header m)) /\
  ~ sorted_before (viz_file folder (header m)) (viz_file folder (header n)).
Proof.
  intro H. pose proof (digits_small (S n) n) as F. pose proof (digits_value (S n) n (Nat.lt_succ_diag_r n)) as V.
  destruct (digits (S n) n) as [|d [|x r]] eqn:E.
  - cbn in V. lia.
  - apply Forall_inv in F. unfold value in V. cbn [fold_left] in V. lia.
  - pose proof (Forall_inv F) as Hd. pose proof (Forall_inv (Forall_inv_tail F)) as Hx. cbv beta in Hd, Hx.
    assert (B : sorted_before (viz_file folder (header n)) (viz_file folder (header d))).
    { unfold viz_file, header. rewrite <- !app_assoc. do 2 apply sb_prefix. rewrite (str_digit d Hd). unfold str. rewrite E.
      cbn [map app]. apply sb_eq. change (codes "_viz" ++ codes ".npz") with (95 :: codes "viz" ++ codes ".npz"). apply sb_lt. lia. }
    exists d. split; [exact Hd|]. split; [exact B|]. apply sb_asym, B.
Qed.
Lemma zfill_form k : k < 1000 -> exists ds, zfill 3 (str k) = map (fun d => 48 + d) ds /\ length ds = 3 /\ Forall (fun d => d < 10) ds /\ value ds = k.
Proof.
  intro H. exists (repeat 0 (3 - length (str k)) ++ digits (S k) k).
  assert (L : length (digits (S k) k) <= 3) by (apply (digits_len (S k) k 3); [lia|exact H]).
  split; [|split; [|split]].
  - unfold zfill. rewrite map_app. f_equal. induction (3 - length (str k)); [reflexivity|]. cbn [repeat map]. f_equal. assumption.
  - rewrite app_length, repeat_length. unfold str. rewrite map_length. lia.
  - apply Forall_app. split; [|apply digits_small]. apply Forall_forall. intros x Hx. apply repeat_spec in Hx. lia.
  - rewrite value_zeros. apply digits_value. lia.
Qed.
Lemma padded_order folder i j : i < j -> j < 1000 -> sorted_before (viz_file folder (padded_header i)) (viz_file folder (padded_header j)).
Proof.
  intros H K. destruct (zfill_form i ltac:(lia)) as (s & Es & Ls & Fs & Vs). destruct (zfill_form j K) as (t & Et & Lt & Ft & Vt).
  unfold viz_file, padded_header. rewrite Es, Et, <- !app_assoc. do 2 apply sb_prefix. apply lex_value; auto; congruence || lia.
Qed.
Lemma str_value n : exists ds, str n = map (fun d => 48 + d) ds /\ Forall (fun d => d < 10) ds /\ value ds = n /\ ds <> [].
Proof.
  exists (digits (S n) n). split; [reflexivity|]. split; [apply digits_small|]. split; [apply digits_value; lia|apply digits_nonempty].
Qed.
