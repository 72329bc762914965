(** Lemmas: sampled chances of being the best. *)
From Verif Require Import M_Base M_RBase M_Select M_UCB M_Normal M_GP M_Acq M_PBest.
From Verif Require Import P_RBase P_Select P_Info P_Psd S_PBest M_UCB.
From Coq Require Import Reals Lra Lia List.
Import ListNotations.
Local Open Scope R_scope.

Lemma Rltb_true x y : Rltb x y = true <-> x < y.
Proof. unfold Rltb. destruct (Rlt_dec x y); split; intros; congruence || tauto. Qed.
Lemma Rltb_false x y : Rltb x y = false <-> y <= x.
Proof. unfold Rltb. destruct (Rlt_dec x y); split; intros; try congruence; try lra. Qed.
Lemma argmax_from_first l : forall best besti i,
  (argmax_from Rltb best besti i l = besti /\ forall x, In x l -> x <= best) \/
  exists j, (j < length l)%nat /\ argmax_from Rltb best besti i l = (i + j)%nat /\ best < nth j l 0 /\
    (forall x, In x l -> x <= nth j l 0) /\ forall k, (k < j)%nat -> nth k l 0 < nth j l 0.
Proof.
  induction l as [|x l IH]; intros best besti i; simpl.
  - left. split; auto. tauto.
  - destruct (Rltb best x) eqn:E.
    + apply Rltb_true in E. right. destruct (IH x i (S i)) as [[Hr Hm]|[j [Hj [Hr [Hb [Hm Hf]]]]]].
      * exists O. repeat split; try lia; try lra. intros z [<-|Hz]; [lra|auto].
      * exists (S j). repeat split; try lia; try lra. { intros z [<-|Hz]; [lra|auto]. }
        intros [|k] Hk; [lra|apply Hf; lia].
    + apply Rltb_false in E. destruct (IH best besti (S i)) as [[Hr Hm]|[j [Hj [Hr [Hb [Hm Hf]]]]]].
      * left. split; auto. intros z [<-|Hz]; auto.
      * right. exists (S j). repeat split; try lia; try lra. { intros z [<-|Hz]; [lra|auto]. }
        intros [|k] Hk; [lra|apply Hf; lia].
Qed.
Lemma argmax_first l k : argmax Rltb l = Ok k -> first_best (length l) (fun j => nth j l 0) k.
Proof.
  destruct l as [|x l]; [discriminate|]. cbn [argmax]. intro H. injection H as <-.
  destruct (argmax_from_first l x 0 1) as [[-> Hm]|[j [Hj [-> [Hb [Hm Hf]]]]]].
  - split; [simpl; lia|]. split; [|intros j Hj; lia]. intros [|j] Hj; simpl; [lra|]. apply Hm, nth_In. simpl in Hj; lia.
  - split; [simpl; lia|]. split.
    + intros [|k] Hk; simpl; [lra|]. apply Hm, nth_In. simpl in Hk; lia.
    + intros [|k] Hk; simpl; [lra|]. apply Hf. lia.
Qed.
Lemma first_best_unique n v i j : first_best n v i -> first_best n v j -> i = j.
Proof.
  intros [Hi [Mi Fi]] [Hj [Mj Fj]]. destruct (Nat.lt_trichotomy i j) as [H|[H|H]]; auto.
  - assert (A := Fj i H). assert (B := Mi j Hj). lra.
  - assert (A := Fi j H). assert (B := Mj i Hi). lra.
Qed.
Lemma first_best_ext n u v i : (forall j, (j < n)%nat -> u j = v j) -> first_best n u i -> first_best n v i.
Proof.
  intros E [Hi [M F]]. split; auto. split; intros j Hj; rewrite <- !E by lia; auto.
Qed.

(** ---- counting ---- *)
Lemma enumerate_from_map {A} (l : list A) d : forall i, enumerate_from i l = map (fun k => ((i + k)%nat, nth k l d)) (seq 0 (length l)).
Proof.
  induction l as [|x l IH]; intro i; simpl; auto. rewrite Nat.add_0_r. f_equal. rewrite IH. rewrite <- seq_shift, map_map.
  apply map_ext. intro k. f_equal. lia.
Qed.
Lemma bump_length p s : length (bump p s) = length p.
Proof. unfold bump, enumerate. rewrite (enumerate_from_map p 0), !map_length, seq_length. auto. Qed.
Lemma nth_map_seq {A} (f : nat -> A) d n i : (i < n)%nat -> nth i (map f (seq 0 n)) d = f i.
Proof. intro H. rewrite (nth_indep _ d (f O)) by (rewrite map_length, seq_length; auto). rewrite map_nth, seq_nth; auto. Qed.
Lemma bump_nth p s i : (i < length p)%nat -> nth i (bump p s) 0 = nth i p 0 + (if Nat.eqb i s then 1 else 0).
Proof.
  intro H. unfold bump, enumerate. rewrite (enumerate_from_map p 0), map_map. rewrite nth_map_seq by auto. cbn [fst snd].
  replace (0 + i)%nat with i by lia. destruct (Nat.eqb i s); lra.
Qed.
Lemma rsum_sumn l : rsum l = sumn (length l) (fun i => nth i l 0).
Proof.
  induction l as [|x l IH]; auto. change (rsum (x :: l)) with (x + rsum l). rewrite IH. cbn [length]. rewrite sumn_first. auto.
Qed.
Lemma sumn_indicator n k : (k < n)%nat -> sumn n (fun i => if Nat.eqb i k then 1 else 0) = 1.
Proof.
  intro H. rewrite (sumn_single n _ k H). { now rewrite Nat.eqb_refl. }
  intros i _ Hi. apply Nat.eqb_neq in Hi. now rewrite Hi.
Qed.
Lemma bump_sum p s : (s < length p)%nat -> rsum (bump p s) = rsum p + 1.
Proof.
  intro H. rewrite !rsum_sumn, bump_length. rewrite (sumn_ext _ _ (fun i => nth i p 0 + (if Nat.eqb i s then 1 else 0))).
  - rewrite sumn_plus, sumn_indicator; auto.
  - intros i Hi. now apply bump_nth.
Qed.
Lemma bumps_length ls : forall p, length (fold_left bump ls p) = length p.
Proof. induction ls as [|s ls IH]; intro p; simpl; auto. now rewrite IH, bump_length. Qed.
Lemma bumps_sum ls : forall p, (forall s, In s ls -> (s < length p)%nat) -> rsum (fold_left bump ls p) = rsum p + INR (length ls).
Proof.
  induction ls as [|s ls IH]; intros p H. { simpl. lra. }
  cbn [fold_left length]. rewrite IH, bump_sum, S_INR; [lra|apply H; now left|]. intros t Ht. rewrite bump_length. apply H. now right.
Qed.
Lemma bumps_nth i ls : forall p, (i < length p)%nat -> exists k, counts (fun s => s = i) ls k /\ nth i (fold_left bump ls p) 0 = nth i p 0 + INR k.
Proof.
  induction ls as [|s ls IH]; intros p H. { exists O. split; [constructor|simpl; lra]. }
  destruct (IH (bump p s)) as [k [Hk E]]; [now rewrite bump_length|]. cbn [fold_left]. rewrite E, bump_nth by auto.
  destruct (Nat.eqb i s) eqn:Es.
  - apply Nat.eqb_eq in Es. exists (S k). split; [constructor; auto|]. rewrite S_INR. lra.
  - apply Nat.eqb_neq in Es. exists k. split; [constructor; auto|]. lra.
Qed.
Lemma counts_map {A B} (P : B -> Prop) (Q : A -> Prop) (l : list A) (l' : list B) k : Forall2 (fun x y => P y <-> Q x) l l' -> counts P l' k -> counts Q l k.
Proof.
  intro H. revert k. induction H as [|x y l l' Hxy H IH]; intros k C; inversion C; subst; constructor; try tauto; auto.
Qed.
Lemma counts_le {A} (P : A -> Prop) l k : counts P l k -> (k <= length l)%nat.
Proof. induction 1; simpl; lia. Qed.
Lemma counts_all {A} (P : A -> Prop) l k : counts P l k -> (forall x, In x l -> P x) -> k = length l.
Proof. induction 1; intro K; simpl; auto. - f_equal. apply IHcounts. intros z Hz. apply K. now right. - exfalso. apply H, K. now left. Qed.
Lemma counts_none {A} (P : A -> Prop) l k : counts P l k -> (forall x, In x l -> ~ P x) -> k = O.
Proof. induction 1; intro K; auto. - exfalso. apply (K x); auto. now left. - apply IHcounts. intros z Hz. apply K. now right. Qed.
Lemma mapM_forall2 {A B} (f : A -> result B) l ys : mapM f l = Ok ys -> Forall2 (fun x y => f x = Ok y) l ys.
Proof.
  revert ys. induction l as [|x l IH]; intros ys H; simpl in H. { injection H as <-. constructor. }
  destruct (f x) as [y|e] eqn:E; [|discriminate]. cbn [bind] in H. destruct (mapM f l) as [zs|e] eqn:E'; [|discriminate].
  cbn [bind] in H. injection H as <-. constructor; auto.
Qed.

(** ---- p_B_pref_linear ---- *)
Lemma dot_pw_reward d x w : length x = d -> length w = d -> dot_pw x w = reward d x w.
Proof.
  revert d w. induction x as [|a x IH]; intros d w Hx Hw; subst d; destruct w as [|b w]; try discriminate; [reflexivity|].
  unfold reward. cbn [length]. rewrite sumn_first. change (dot_pw (a :: x) (b :: w)) with (a * b + dot_pw x w).
  rewrite (IH (length x) w); auto.
Qed.
Lemma nth_zeros {A} (l : list A) i : nth i (map (fun _ => 0) l) 0 = 0.
Proof. revert i. induction l as [|x l IH]; intros [|i]; simpl; auto. Qed.
Section linear.
Variables (d : nat) (pts ws : list (list R)).
Hypothesis Hp : forall x, In x pts -> length x = d.
Hypothesis Hw : forall w, In w ws -> length w = d.
Hypothesis Hpts : pts <> nil.
Hypothesis Hws : ws <> nil.
Notation val w := (fun j => reward d (nth j pts nil) w).

Lemma sampled_row w j : In w ws -> (j < length pts)%nat -> nth j (map (fun x => dot_pw x w) pts) 0 = reward d (nth j pts nil) w.
Proof.
  intros H Hj. rewrite (nth_indep _ 0 (dot_pw nil w)) by now rewrite map_length. rewrite (map_nth (fun x => dot_pw x w)).
  apply dot_pw_reward; auto. apply Hp. now apply nth_In.
Qed.
Lemma linear_largest : exists ls, mapM (argmax Rltb) (sampled_values pts ws) = Ok ls /\ Forall2 (fun w s => first_best (length pts) (val w) s) ws ls.
Proof.
  destruct (mapM_total (argmax Rltb) (sampled_values pts ws)) as [ls E].
  - intros r Hr. apply in_map_iff in Hr. destruct Hr as [w [<- _]]. destruct pts as [|x l]; [congruence|]. simpl. eauto.
  - exists ls. split; auto. apply mapM_forall2 in E. unfold sampled_values in E. clear Hws.
    revert ls E Hw. generalize ws as us. intro us. induction us as [|w us IH]; intros ls E Hu; inversion E; subst; constructor.
    + apply argmax_first in H1. rewrite map_length in H1. refine (first_best_ext _ _ _ _ _ H1). intros j Hj.
      rewrite (nth_indep _ 0 (dot_pw nil w)) by now rewrite map_length. rewrite (map_nth (fun x => dot_pw x w)).
      apply dot_pw_reward. { apply Hp. now apply nth_In. } { apply Hu. now left. }
    + apply IH; auto. intros u Hu'. apply Hu. now right.
Qed.
Lemma linear_chances : exists p, p_B_pref_linear pts ws = Ok p /\ chances (length pts) p /\
  forall i, (i < length pts)%nat -> exists k, counts (fun w => first_best (length pts) (val w) i) ws k /\ nth i p 0 = INR k / INR (length ws).
Proof.
  destruct linear_largest as [ls [E F]]. unfold p_B_pref_linear. rewrite E. cbn [bind].
  set (p0 := map (fun _ : list R => 0) pts). set (p := fold_left bump ls p0).
  assert (Hl0 : length p0 = length pts) by apply map_length.
  assert (Hl : length p = length pts) by (unfold p; now rewrite bumps_length).
  assert (Hls : length ls = length ws) by (symmetry; clear - F; induction F; simpl; auto).
  assert (Hin : forall s, In s ls -> (s < length p0)%nat).
  { rewrite Hl0. clear - F. induction F as [|w s us ls' H F IH]; [intros s []|]. intros t [<-|Ht]; [apply H|auto]. }
  assert (H0 : rsum p0 = 0). { unfold p0. rewrite rsum_const. lra. }
  assert (Hs : rsum p = INR (length ws)). { unfold p. rewrite (bumps_sum ls p0 Hin), H0, Hls. lra. }
  assert (Hpos : 0 < INR (length ws)). { apply lt_0_INR. destruct ws; [congruence|simpl; lia]. }
  assert (Hn : forall i, (i < length pts)%nat -> exists k, counts (fun w => first_best (length pts) (val w) i) ws k /\ nth i p 0 = INR k).
  { intros i Hi. destruct (bumps_nth i ls p0) as [k [Hk Hv]]; [lia|]. exists k. split.
    - refine (counts_map (fun s => s = i) _ ws ls k _ Hk). clear - F. induction F as [|w s us ls' H F IH]; constructor; auto.
      split; [intros ->; auto|]. intro K. exact (first_best_unique _ _ _ _ H K).
    - unfold p. rewrite Hv. unfold p0. rewrite nth_zeros. lra. }
  exists (map (fun q => q / rsum p) p). split; [reflexivity|].
  assert (Hnp : forall i, (i < length pts)%nat -> nth i (map (fun q => q / rsum p) p) 0 = nth i p 0 / INR (length ws)).
  { intros i Hi. rewrite (nth_indep _ 0 ((fun q => q / rsum p) 0)) by (rewrite map_length; lia). rewrite (map_nth (fun q => q / rsum p)). now rewrite Hs. }
  split.
  - split; [now rewrite map_length|]. split.
    + intros q Hq. destruct (In_nth _ _ 0 Hq) as [i [Hi <-]]. rewrite map_length in Hi. rewrite Hnp by lia.
      destruct (Hn i) as [k [_ ->]]; [lia|]. apply Rmult_le_pos; [apply pos_INR|]. now apply Rlt_le, Rinv_0_lt_compat.
    + rewrite rsum_div, Hs. field. lra.
  - intros i Hi. destruct (Hn i Hi) as [k [Hk Hv]]. exists k. split; auto. rewrite Hnp, Hv; auto.
Qed.
End linear.
Lemma ws_pos {A} (ws : list A) : ws <> nil -> 0 < INR (length ws).
Proof. intro H. apply lt_0_INR. destruct ws; [congruence|simpl; lia]. Qed.
Section consequences.
Variables (d : nat) (pts ws : list (list R)).
Hypothesis Hp : forall x, In x pts -> length x = d.
Hypothesis Hw : forall w, In w ws -> length w = d.
Hypothesis Hws : ws <> nil.
Lemma pts_ne i : (i < length pts)%nat -> pts <> nil.
Proof. intros H E. rewrite E in H. simpl in H. lia. Qed.
Lemma linear_share i p : (i < length pts)%nat -> p_B_pref_linear pts ws = Ok p ->
  exists k, counts (fun w => first_best (length pts) (fun j => reward d (nth j pts nil) w) i) ws k /\ nth i p 0 = INR k / INR (length ws).
Proof.
  intros Hi E. destruct (linear_chances d pts ws Hp Hw (pts_ne i Hi) Hws) as [p' [E' [_ F]]]. rewrite E in E'. injection E' as <-. now apply F.
Qed.
End consequences.
Lemma linear_never d pts ws i j p : (forall x, In x pts -> length x = d) -> (forall w, In w ws -> length w = d) -> ws <> nil ->
  (i < length pts)%nat -> (j < length pts)%nat -> (forall w, In w ws -> reward d (nth i pts nil) w < reward d (nth j pts nil) w) ->
  p_B_pref_linear pts ws = Ok p -> nth i p 0 = 0.
Proof.
  intros Hp Hw Hws Hi Hj H E. destruct (linear_share d pts ws Hp Hw Hws i p Hi E) as [k [Hk ->]].
  rewrite (counts_none _ _ _ Hk). { simpl. unfold Rdiv. ring. }
  intros w Hin [_ [M _]]. assert (A := M j Hj). assert (B := H w Hin). cbn beta in A. lra.
Qed.
Lemma linear_always d pts ws i p : (forall x, In x pts -> length x = d) -> (forall w, In w ws -> length w = d) -> ws <> nil ->
  (i < length pts)%nat -> (forall w j, In w ws -> (j < length pts)%nat -> j <> i -> reward d (nth j pts nil) w < reward d (nth i pts nil) w) ->
  p_B_pref_linear pts ws = Ok p -> nth i p 0 = 1 /\ forall j, (j < length pts)%nat -> j <> i -> nth j p 0 = 0.
Proof.
  intros Hp Hw Hws Hi H E. split.
  - destruct (linear_share d pts ws Hp Hw Hws i p Hi E) as [k [Hk ->]]. rewrite (counts_all _ _ _ Hk).
    + assert (P := ws_pos ws Hws). field. lra.
    + intros w Hin. split; auto. split; intros j Hj.
      * destruct (Nat.eq_dec j i) as [->|N]; [lra|]. left. now apply H.
      * apply H; auto; lia.
  - intros j Hj N. apply (linear_never d pts ws j i p); auto.
Qed.
Lemma sumn_lt n f g : (forall c, (c < n)%nat -> f c <= g c) -> (exists c, (c < n)%nat /\ f c < g c) -> sumn n f < sumn n g.
Proof.
  intros H [c [Hc Hl]]. induction n as [|n IH]; [lia|]. cbn [sumn]. destruct (Nat.eq_dec c n) as [->|N].
  - assert (sumn n f <= sumn n g) by (apply sumn_le; intros; apply H; lia). lra.
  - assert (sumn n f < sumn n g) by (apply IH; [intros; apply H; lia|lia]). assert (f n <= g n) by (apply H; lia). lra.
Qed.
Lemma linear_dominated d pts ws i j p : (forall x, In x pts -> length x = d) -> (forall w, In w ws -> length w = d) -> ws <> nil ->
  (i < length pts)%nat -> (j < length pts)%nat -> (forall c, (c < d)%nat -> nth c (nth i pts nil) 0 < nth c (nth j pts nil) 0) ->
  (forall w, In w ws -> (forall c, (c < d)%nat -> 0 <= nth c w 0) /\ exists c, (c < d)%nat /\ 0 < nth c w 0) ->
  p_B_pref_linear pts ws = Ok p -> nth i p 0 = 0.
Proof.
  intros Hp Hw Hws Hi Hj Hd Hn E. apply (linear_never d pts ws i j p); auto. intros w Hin. destruct (Hn w Hin) as [H0 [c [Hc Hpos]]].
  unfold reward. apply sumn_lt.
  - intros b Hb. apply Rmult_le_compat_r; auto. left. now apply Hd.
  - exists c. split; [exact Hc|]. apply Rmult_lt_compat_r; auto.
Qed.
