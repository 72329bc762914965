(** Lemmas about BayesInfoGain. *)
From Coq Require Import Lra.
From Verif Require Import M_RBase P_RBase M_Util S_Util P_Util M_Select P_Select S_User M_Fake S_Fake P_Fake2 P_User M_OrdProbit M_Info S_Info P_Info P_Info2.
Local Open Scope R_scope.

Lemma zipw_const {A B C} (f : A -> B -> C) (c : A) (w : list B) n : length w = n -> zipw f (map (fun _ => c) (seq 0 n)) w = map (f c) w.
Proof.
  intro H. subst n. generalize 0%nat. induction w as [|b w IH]; intro s; [reflexivity|]. cbn [length seq map zipw]. f_equal. apply IH.
Qed.
Lemma combine_zipw {A B C} (f : A -> B -> C) x y : zipw f x y = map (fun ab => f (fst ab) (snd ab)) (combine x y).
Proof. revert y. induction x as [|a x IH]; intros [|b y]; try reflexivity. cbn [zipw combine map]. f_equal. apply IH. Qed.
Lemma combine_map_snd {A B C} (g : B -> C) (x : list A) (y : list B) : combine x (map g y) = map (fun ab => (fst ab, g (snd ab))) (combine x y).
Proof. revert y. induction x as [|a x IH]; intros [|b y]; try reflexivity. cbn [combine map]. f_equal. apply IH. Qed.
Lemma combine_self_map {A B C} (g : A -> B) (h : A -> C) (x : list A) : combine (map g x) (map h x) = map (fun a => (g a, h a)) x.
Proof. induction x as [|a x IH]; [reflexivity|]. cbn [map combine]. f_equal. apply IH. Qed.
Lemma map_snd_combine {A B} (x : list A) (y : list B) : length x = length y -> map snd (combine x y) = y.
Proof. revert y. induction x as [|a x IH]; intros [|b y] H; try discriminate; [reflexivity|]. cbn [combine map snd]. f_equal. apply IH. now inversion H. Qed.
Lemma rprod_pos l : (forall x, In x l -> 0 < x) -> 0 < rprod l.
Proof.
  induction l as [|x l IH]; intro H; [simpl; lra|]. cbn. apply Rmult_lt_0_compat; [apply H; now left|apply IH; intros; apply H; now right].
Qed.
Lemma enumerate_from_length {A} (l : list A) : forall i, length (enumerate_from i l) = length l.
Proof. induction l; intro i; simpl; auto. Qed.
Lemma enumerate_in {A} (l : list A) : forall s k x, In (k, x) (enumerate_from s l) -> In x l.
Proof. induction l as [|y l IH]; intros s k x H; [contradiction|]. destruct H as [E | H]; [inversion E; now left|right; eauto]. Qed.
Lemma del_nth_in {A} i (l : list A) x : In x (del_nth i l) -> In x l.
Proof.
  unfold del_nth. intro H. apply in_app_or in H. destruct H as [H | H].
  - rewrite <- (firstn_skipn i l). apply in_or_app. now left.
  - rewrite <- (firstn_skipn (S i) l). apply in_or_app. now right.
Qed.
Lemma sub_probit_ok n P q Qs : positive_matrix n P -> (q < n)%nat -> (forall i, In i Qs -> (i < n)%nat) ->
  exists sub, sub_probit P q Qs = Ok sub /\ forall x, In x sub -> 0 < x.
Proof.
  intros [Hl Hr] Hq HQ. unfold sub_probit. destruct (nth_error P q) as [row|] eqn:E; [|apply nth_error_None in E; lia].
  unfold getitem at 1. rewrite E. cbn [bind]. destruct (Hr row (nth_error_In _ _ E)) as [Lr Pr].
  exists (map (fun i => nth i row 0) Qs). split; [apply mapM_map_ok; intros i Hi; apply getitem_nth; rewrite Lr; auto|].
  intros x Hx. apply in_map_iff in Hx. destruct Hx as [i [<- Hi]]. apply Pr. apply nth_In. rewrite Lr. auto.
Qed.
Lemma subs_ok n P Q l : positive_matrix n P -> (forall i, In i Q -> (i < n)%nat) -> (forall kq, In kq l -> In (snd kq) Q) ->
  exists subs, mapM (fun iq => sub_probit P (snd iq) (del_nth (fst iq) Q)) l = Ok subs /\ length subs = length l /\
    forall sub, In sub subs -> forall x, In x sub -> 0 < x.
Proof.
  intros HP HQ. induction l as [|kq l IH]; intro Hl; [exists []; repeat split; contradiction|].
  destruct IH as [subs [E [L Ps]]]; [intros; apply Hl; now right|].
  destruct (sub_probit_ok n P (snd kq) (del_nth (fst kq) Q) HP) as [sub [Es Psub]].
  - apply HQ. apply Hl. now left.
  - intros i Hi. apply HQ. eapply del_nth_in; eauto.
  - exists (sub :: subs). cbn [mapM]. rewrite Es. cbn [bind]. rewrite E. cbn [bind]. split; [reflexivity|]. split; [simpl; congruence|].
    intros s [<- | Hs] x Hx; [now apply Psub|now apply (Ps s)].
Qed.
Lemma col_sums_const N (g : list R -> R) (rows : list (list R)) :
  col_sums N (map (fun s => map (fun _ => g s) (seq 0 N)) rows) = map (fun _ => rsum (map g rows)) (seq 0 N).
Proof.
  unfold col_sums. apply map_ext_in. intros i Hi. apply in_seq0 in Hi. rewrite map_map. f_equal. apply map_ext. intro s. now rewrite nth_map_seq.
Qed.
(** the default method: the likelihood of an answer does not depend on which candidate is best *)
Lemma calc_H_probit Q p_B P : Q <> [] -> positive_matrix (length p_B) P -> (forall i, In i Q -> (i < length p_B)%nat) -> rsum p_B = 1 ->
  calc_H_B_Q MethodProbit Q p_B P = Ok (code_entropy p_B).
Proof.
  intros HQ HP Hin Hsum. unfold calc_H_B_Q.
  destruct (subs_ok _ P Q (enumerate Q) HP Hin) as [subs [E [L Ps]]]; [intros [k q] H; eapply enumerate_in; exact H|].
  rewrite E. cbn [bind]. f_equal. unfold enumerate in L. rewrite enumerate_from_length in L. set (N := length p_B).
  assert (E1 : map (fun qs => map (p_q_B_entry MethodProbit Q (fst qs) (snd qs)) (seq 0 N)) (combine Q subs)
             = map (fun s => map (fun _ => rprod s) (seq 0 N)) subs).
  { rewrite <- (map_snd_combine Q subs) at 2 by auto. rewrite map_map. apply map_ext. intros [q s]. apply map_ext. intro B.
    unfold p_q_B_entry. cbn. now destruct (negb (mem B Q)). }
  rewrite E1, (col_sums_const N rprod subs). set (T := rsum (map rprod subs)).
  assert (HT : 0 < T).
  { apply rsum_pos; [destruct subs; [destruct Q; [congruence|discriminate]|discriminate]|].
    intros x Hx. apply in_map_iff in Hx. destruct Hx as [s [<- Hs]]. apply rprod_pos. eauto. }
  assert (E2 : map (fun row => zipw Rdiv row (map (fun _ => T) (seq 0 N))) (map (fun s => map (fun _ => rprod s) (seq 0 N)) subs)
             = map (fun s => map (fun _ => rprod s / T) (seq 0 N)) subs).
  { rewrite map_map. apply map_ext. intro s. rewrite zipw_const by (now rewrite map_length, seq_length). now rewrite map_map. }
  rewrite E2. clear E1 E2.
  rewrite (map_map rprod).
  assert (E3 : zipw (fun row pq => zipw (fun x b => x * b / pq) row p_B) (map (fun s => map (fun _ => rprod s / T) (seq 0 N)) subs)
                 (map (fun s => rprod s / T) subs) = map (fun _ => p_B) subs).
  { rewrite combine_zipw, combine_self_map, map_map. cbn [fst snd]. apply map_ext_in.
    intros s Hs. rewrite zipw_const by reflexivity. rewrite <- (map_id p_B) at 2. apply map_ext. intro b.
    assert (K : 0 < rprod s) by (apply rprod_pos; eauto). field. lra. }
  rewrite E3. clear E3.
  rewrite (map_map (fun _ : list R => p_B)). rewrite (map_ext (fun x => x / rsum p_B) (fun x => x)) by (intro; rewrite Hsum; field). rewrite map_id.
  rewrite combine_zipw, combine_self_map, map_map. cbn [fst snd].
  rewrite (rsum_ext _ (fun s => code_entropy p_B / T * rprod s) subs) by (intros; field; lra).
  rewrite rsum_map_scale. fold T. field. lra.
Qed.
Lemma bayes_default p_B P i0 ls prev draw : prev <> [] -> positive_matrix (length p_B) P ->
  (forall i, In i (prev ++ i0 :: ls) -> (i < length p_B)%nat) -> rsum p_B = 1 ->
  (forall i, In i (i0 :: ls) -> exists h, calc_H_B_Q MethodProbit (prev ++ [i]) p_B P = Ok h /\ code_entropy p_B - h = 0) /\
  bayes_greedy MethodProbit p_B P (i0 :: ls) prev draw = Ok (i0, Some 0).
Proof.
  intros Hp HP Hin Hs.
  assert (K : forall i, In i (i0 :: ls) -> calc_H_B_Q MethodProbit (prev ++ [i]) p_B P = Ok (code_entropy p_B)).
  { intros i Hi. apply calc_H_probit; auto; [destruct prev; discriminate|]. intros j Hj. apply Hin. apply in_app_or in Hj. apply in_or_app.
    destruct Hj as [Hj | [<- | []]]; auto. }
  split; [intros i Hi; eexists; split; [now apply K|lra]|].
  unfold bayes_greedy. destruct prev as [|p prev]; [congruence|].
  assert (E := pick_same (fun Q_i => do h <- calc_H_B_Q MethodProbit ((p :: prev) ++ [Q_i]) p_B P; Ok (code_entropy p_B - h)) i0 ls 0).
  cbn beta in E. assert (K2 : forall i, In i (i0 :: ls) -> (do h <- calc_H_B_Q MethodProbit ((p :: prev) ++ [i]) p_B P; Ok (code_entropy p_B - h)) = Ok 0).
  { intros i Hi. rewrite K by auto. cbn [bind]. f_equal. lra. }
  specialize (E K2). destruct (mapM _ (i0 :: ls)) as [v|e]; [|discriminate]. cbn [bind] in *.
  destruct (argmax Rltb v) as [b|e]; [|discriminate]. cbn [bind] in *. destruct (getitem v b) as [m|e]; [|discriminate]. cbn [bind] in *.
  destruct (getitem (i0 :: ls) b) as [i|e]; [|discriminate]. cbn [bind] in *. inversion E. reflexivity.
Qed.
