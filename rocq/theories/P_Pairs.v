From Verif Require Import M_Base P_Base M_Pairs S_Pairs.
From Coq Require Import Relations.

Lemma get_dk_spec u v :
  (get_dk u v = (-1)%Z <-> (v <= u)%Q) /\ (get_dk u v = 1%Z <-> (u < v)%Q).
Proof.
  unfold get_dk. destruct (Qlt_bool v u) eqn:E1.
  - apply Qlt_bool_iff in E1. split; split; intro H; try discriminate; auto.
    + now apply Qlt_le_weak.
    + exfalso. exact (Qlt_irrefl _ (Qlt_trans _ _ _ H E1)).
  - apply Qlt_bool_false in E1. destruct (Qlt_bool u v) eqn:E2.
    + apply Qlt_bool_iff in E2. split; split; intro H; try discriminate; auto.
      exfalso. exact (Qlt_not_le _ _ E2 H).
    + apply Qlt_bool_false in E2. split; split; intro H; try discriminate; auto.
      exfalso. exact (Qlt_not_le _ _ H E2).
Qed.
Lemma get_dk_cases u v :
  (get_dk u v = (-1)%Z /\ (v <= u)%Q) \/ (get_dk u v = 1%Z /\ (u < v)%Q).
Proof.
  destruct (Qlt_le_dec u v) as [H|H]; [right|left]; split; auto; now apply get_dk_spec.
Qed.

Lemma gen_pairs_from_idx_spec best l :
  gen_pairs_from_idx best l
  = map (fun i => ((-1)%Z, best, i)) (filter (fun i => negb (Nat.eqb i best)) l).
Proof.
  induction l as [|x l IH]; simpl; auto. rewrite IH. destruct (negb (x =? best)); reflexivity.
Qed.

Lemma ranked_inner_In yi i j tail p :
  In p (ranked_inner yi i j tail) <->
  exists k yk, nth_error tail k = Some yk /\ p = (get_dk yi yk, i, j + k).
Proof.
  revert j. induction tail as [|y tail IH]; intro j; simpl.
  - split; [tauto|]. intros [[|k] [yk [H _]]]; discriminate.
  - rewrite IH. split.
    + intros [<-|[k [yk [H ->]]]].
      * exists 0, y. rewrite Nat.add_0_r. auto.
      * exists (S k), yk. split; auto. f_equal; lia.
    + intros [[|k] [yk [H ->]]]; simpl in H.
      * left. inversion H. rewrite Nat.add_0_r. reflexivity.
      * right. exists k, yk. split; auto. f_equal; lia.
Qed.
Lemma ranked_outer_In i tail p :
  In p (ranked_outer i tail) <->
  exists a b ya yb, a < b /\ nth_error tail a = Some ya /\ nth_error tail b = Some yb /\
     p = (get_dk ya yb, i + a, i + b).
Proof.
  revert i. induction tail as [|y tail IH]; intro i; simpl.
  - split; [tauto|]. intros [[|a] [b [ya [yb [_ [H _]]]]]]; discriminate.
  - rewrite in_app_iff, ranked_inner_In, IH. split.
    + intros [[k [yk [H ->]]]|[a [b [ya [yb [Hab [Ha [Hb ->]]]]]]]].
      * exists 0, (S k), y, yk. repeat split; auto; [lia|]. f_equal; [f_equal|]; lia.
      * exists (S a), (S b), ya, yb. repeat split; auto; [lia|]. f_equal; [f_equal|]; lia.
    + intros [a [b [ya [yb [Hab [Ha [Hb ->]]]]]]]. destruct b as [|b]; [lia|]. simpl in Hb.
      destruct a as [|a]; simpl in Ha.
      * left. exists b, yb. inversion Ha; subst. split; auto. f_equal; [f_equal|]; lia.
      * right. exists a, b, ya, yb. repeat split; auto; [lia|]. f_equal; [f_equal|]; lia.
Qed.
Lemma ranked_In Y p :
  In p (ranked_pairs_from_fake Y) <->
  exists a b ya yb, a < b /\ nth_error Y a = Some ya /\ nth_error Y b = Some yb /\
     p = (get_dk ya yb, a, b).
Proof. unfold ranked_pairs_from_fake. rewrite ranked_outer_In. reflexivity. Qed.

Lemma ranked_truthful Y p : In p (ranked_pairs_from_fake Y) -> truthful Y p.
Proof.
  rewrite ranked_In. intros [a [b [ya [yb [Hab [Ha [Hb ->]]]]]]]. simpl. split; [lia|].
  exists ya, yb. repeat split; auto. apply get_dk_cases.
Qed.

Lemma generate_fake_pairs_spec Y pair_i ps :
  generate_fake_pairs Y pair_i = Ok ps ->
  map pts ps = map (fun i => (pair_i, i)) (filter (fun i => negb (Nat.eqb i pair_i)) (seq 0 (length Y))) /\
  (forall p, In p ps -> truthful Y p).
Proof.
  unfold generate_fake_pairs. intro H. apply mapM_ok in H. split.
  - assert (E : seq 0 (length Y) = map fst (enumerate Y)) by (symmetry; apply enumerate_from_fst).
    rewrite E. clear E.
    replace (filter (fun i => negb (i =? pair_i)) (map fst (enumerate Y)))
      with (map fst (filter (fun iy : nat * Q => negb (fst iy =? pair_i)) (enumerate Y))).
    2:{ generalize (enumerate Y). intro l. induction l as [|x l IH]; simpl; auto.
        destruct (negb (fst x =? pair_i)); simpl; now rewrite IH. }
    revert H. generalize (filter (fun iy : nat * Q => negb (fst iy =? pair_i)) (enumerate Y)).
    intros l H. induction H as [|x y l ys Hf H IH]; simpl; auto.
    rewrite IH. f_equal. destruct (getitem Y pair_i); simpl in Hf; inversion Hf. reflexivity.
  - intros p Hp.
    assert (Hm : mapM (fun iy : nat * Q => do yp <- getitem Y pair_i; Ok (get_dk yp (snd iy), pair_i, fst iy))
       (filter (fun iy : nat * Q => negb (Nat.eqb (fst iy) pair_i)) (enumerate Y)) = Ok ps) by (now apply mapM_ok).
    destruct (mapM_In _ _ _ _ Hm Hp) as [[i y] [Hin Hf]]. apply filter_In in Hin. destruct Hin as [Hin Hne].
    apply enumerate_nth in Hin. simpl in *. unfold getitem in Hf. destruct (nth_error Y pair_i) as [yp|] eqn:E.
    + simpl in Hf. inversion Hf; subst. simpl. apply negb_true_iff, Nat.eqb_neq in Hne. split; [congruence|].
      exists yp, y. repeat split; auto. apply get_dk_cases.
    + discriminate.
Qed.
Lemma mapM_total {A B} (f : A -> result B) l :
  (forall x, In x l -> exists y, f x = Ok y) -> exists ys, mapM f l = Ok ys.
Proof.
  induction l as [|x l IH]; simpl; intro H; [eexists; reflexivity|].
  destruct (H x (or_introl eq_refl)) as [y ->]. destruct IH as [ys ->]; [auto|]. simpl. eexists; reflexivity.
Qed.
Lemma generate_fake_pairs_total Y pair_i : pair_i < length Y -> exists ps, generate_fake_pairs Y pair_i = Ok ps.
Proof.
  intro H. apply mapM_total. intros [i y] _. unfold getitem.
  destruct (nth_error Y pair_i) as [yp|] eqn:E; [simpl; eexists; reflexivity|].
  apply nth_error_None in E. lia.
Qed.

Lemma ranked_inner_pts yi i j tail : map pts (ranked_inner yi i j tail) = map (fun k => (i, k)) (seq j (length tail)).
Proof. revert j; induction tail as [|y tail IH]; intro j; simpl; auto. now rewrite IH. Qed.
Lemma ranked_pts_NoDup i tail : NoDup (map pts (ranked_outer i tail)).
Proof.
  revert i; induction tail as [|y tail IH]; intro i; simpl; [constructor|].
  rewrite map_app, ranked_inner_pts. generalize (IH (S i)). intro Hnd.
  assert (Hout : forall q, In q (map pts (ranked_outer (S i) tail)) -> i < fst q).
  { intros q Hq. apply in_map_iff in Hq. destruct Hq as [p [<- Hp]]. apply ranked_outer_In in Hp.
    destruct Hp as [a [b [ya [yb [_ [_ [_ ->]]]]]]]. simpl. lia. }
  generalize (seq_NoDup (length tail) (S i)). generalize (seq (S i) (length tail)). intros s Hs.
  induction Hs as [|k s Hk Hs IHs]; simpl; auto. constructor; auto.
  rewrite in_app_iff. intros [H|H].
  - apply in_map_iff in H. destruct H as [k' [E Hk']]. inversion E; subst. tauto.
  - apply Hout in H. simpl in H. lia.
Qed.
Lemma ranked_complete Y u v :
  In (u, v) (map pts (ranked_pairs_from_fake Y)) <-> u < v < length Y.
Proof.
  rewrite in_map_iff. split.
  - intros [p [E Hp]]. apply ranked_In in Hp. destruct Hp as [a [b [ya [yb [Hab [Ha [Hb ->]]]]]]].
    inversion E; subst. split; auto. apply nth_error_Some. congruence.
  - intros [Huv Hv].
    destruct (nth_error Y u) as [yu|] eqn:Eu; [|apply nth_error_None in Eu; lia].
    destruct (nth_error Y v) as [yv|] eqn:Ev; [|apply nth_error_None in Ev; lia].
    exists (get_dk yu yv, u, v). split; [reflexivity|]. apply ranked_In. exists u, v, yu, yv. auto.
Qed.
Lemma ranked_length_aux i tail : 2 * length (ranked_outer i tail) = length tail * (length tail - 1).
Proof.
  revert i; induction tail as [|y tail IH]; intro i; simpl; auto.
  rewrite app_length.
  assert (E : length (ranked_inner y i (S i) tail) = length tail).
  { rewrite <- (map_length pts), ranked_inner_pts, map_length, seq_length. reflexivity. }
  rewrite E. specialize (IH (S i)). destruct (length tail) as [|n]; simpl in *; nia.
Qed.
Lemma ranked_length Y : 2 * length (ranked_pairs_from_fake Y) = length Y * (length Y - 1).
Proof. apply ranked_length_aux. Qed.

(** value order with index tie-break; every preference of the ranked list goes strictly down in it *)
Lemma ranked_acyclic Y : acyclic (beats (ranked_pairs_from_fake Y)).
Proof.
  set (lt2 := fun a b => exists ya yb, nth_error Y a = Some ya /\ nth_error Y b = Some yb /\
                   ((yb < ya)%Q \/ ((yb <= ya)%Q /\ a < b))).
  assert (Hb : forall a b, beats (ranked_pairs_from_fake Y) a b -> lt2 a b).
  { intros a b [H|H]; apply ranked_In in H; destruct H as [x [y [yx [yy [Hxy [Hx [Hy E]]]]]]]; inversion E; subst.
    - exists yx, yy. repeat split; auto. right. split; auto.
      destruct (get_dk_spec yx yy) as [K _]. apply K. congruence.
    - exists yy, yx. repeat split; auto. left.
      destruct (get_dk_spec yx yy) as [_ K]. apply K. congruence. }
  assert (Htr : forall a b c, lt2 a b -> lt2 b c -> lt2 a c).
  { intros a b c [ya [yb [Ha [Hb1 H1]]]] [yb' [yc [Hb2 [Hc H2]]]].
    rewrite Hb1 in Hb2. inversion Hb2; subst yb'. exists ya, yc. repeat split; auto.
    destruct H1 as [H1|[H1 H1']], H2 as [H2|[H2 H2']].
    - left. eapply Qlt_trans; eauto.
    - left. eapply Qle_lt_trans; eauto.
    - left. eapply Qlt_le_trans; eauto.
    - right. split; [eapply Qle_trans; eauto | lia]. }
  intros a H. assert (K : lt2 a a).
  { remember a as b in H at 2. assert (G : forall x y, clos_trans nat (beats (ranked_pairs_from_fake Y)) x y -> lt2 x y).
    { intros x y C. induction C; eauto. }
    subst b. auto. }
  destruct K as [ya [yb [Ha [Hb1 [K|[_ K]]]]]]; [|lia].
  rewrite Ha in Hb1. inversion Hb1; subst. exact (Qlt_irrefl _ K).
Qed.

Lemma ranking_pairs_built_In l p :
  In p (ranking_pairs_built l) <-> exists i j a b, i < j /\ nth_error l i = Some a /\ nth_error l j = Some b /\ p = ((-1)%Z, a, b).
Proof.
  unfold ranking_pairs_built. induction l as [|x l IH]; simpl.
  - split; [tauto|]. intros [[|i] [j [a [b [_ [H _]]]]]]; discriminate.
  - rewrite in_app_iff, in_map_iff, IH. split.
    + intros [[y [<- Hy]]|[i [j [a [b [Hij [Hi [Hj ->]]]]]]]].
      * apply In_nth_error in Hy. destruct Hy as [j Hj]. exists 0, (S j), x, y. repeat split; auto. lia.
      * exists (S i), (S j), a, b. repeat split; auto. lia.
    + intros [i [j [a [b [Hij [Hi [Hj ->]]]]]]]. destruct j as [|j]; [lia|]. simpl in Hj. destruct i as [|i]; simpl in Hi.
      * inversion Hi; subst. left. exists b. split; [reflexivity|]. eapply nth_error_In; eauto.
      * right. exists i, j, a, b. repeat split; auto. lia.
Qed.
