(** Lemmas about the kernels. *)
From Verif Require Import P_Base P_RBase P_Util S_Psd P_Psd.
From Coq Require Import List Lra Lia.
From Verif Require Import M_RBase M_Util M_Kernel S_Psd S_Kernel.
Local Open Scope R_scope.

(** ---- entries of matrices ---- *)
Lemma entry_pairwise f X Y i j : (i < length X)%nat -> (j < length Y)%nat -> entry (pairwise f X Y) i j = f (pt X i) (pt Y j).
Proof.
  intros Hi Hj. unfold entry, pairwise, pt.
  rewrite (nth_indep (map _ X) [] ((fun x => map (fun y => f x y) Y) [])) by (rewrite map_length; auto).
  rewrite (map_nth (fun x => map (fun y => f x y) Y)).
  rewrite (nth_indep (map _ Y) 0 ((fun y => f (nth i X []) y) [])) by (rewrite map_length; auto).
  now rewrite (map_nth (fun y => f (nth i X []) y)).
Qed.
Lemma shape_pairwise f X Y : shape (length X) (length Y) (pairwise f X Y).
Proof.
  split; [apply map_length|]. intros row H. apply in_map_iff in H as [x [<- _]]. apply map_length.
Qed.
Lemma enumerate_from_nth_entry {A} (l : list A) s i d : (i < length l)%nat -> nth i (enumerate_from s l) (0%nat, d) = ((s + i)%nat, nth i l d).
Proof.
  revert s i. induction l as [|x l IH]; intros s i H; simpl in *; [lia|]. destruct i; [now rewrite Nat.add_0_r|].
  rewrite IH by lia. f_equal. lia.
Qed.
Lemma entry_add_eye n M r c i j : shape r c M -> (i < r)%nat -> (j < c)%nat ->
  entry (add_eye n M) i j = entry M i j + if Nat.eqb i j then n else 0.
Proof.
  intros [H1 H2] Hi Hj. unfold entry, add_eye.
  set (f := fun ir : nat * list R => map (fun jv : nat * R => if Nat.eqb (fst ir) (fst jv) then snd jv + n else snd jv) (enumerate (snd ir))).
  rewrite (nth_indep (map f (enumerate M)) [] (f (0%nat, []))) by (rewrite map_length; unfold enumerate; rewrite enumerate_from_length; lia).
  rewrite (map_nth f). unfold enumerate. rewrite enumerate_from_nth_entry by lia. subst f. cbn [fst snd].
  set (row := nth i M []). assert (Hr : length row = c) by (apply H2, nth_In; lia).
  set (g := fun jv : nat * R => if Nat.eqb (0 + i) (fst jv) then snd jv + n else snd jv).
  rewrite (nth_indep (map g (enumerate row)) 0 (g (0%nat, 0))) by (rewrite map_length; unfold enumerate; rewrite enumerate_from_length; lia).
  rewrite (map_nth g). unfold enumerate. rewrite enumerate_from_nth_entry by lia. subst g. cbn [fst snd]. simpl. destruct (Nat.eqb i j); lra.
Qed.
Lemma shape_add_eye n M r c : shape r c M -> shape r c (add_eye n M).
Proof.
  intros [H1 H2]. split.
  - unfold add_eye. rewrite map_length. unfold enumerate. now rewrite enumerate_from_length.
  - intros row H. apply in_map_iff in H as [[i rw] [<- H]]. cbn [fst snd]. rewrite map_length. unfold enumerate. rewrite enumerate_from_length.
    apply enumerate_nth in H. apply H2. now apply nth_error_In in H.
Qed.
Lemma nth_combine_lt {A B} (l : list A) (l' : list B) i a b : (i < length l)%nat -> (i < length l')%nat ->
  nth i (combine l l') (a, b) = (nth i l a, nth i l' b).
Proof.
  revert l' i. induction l as [|x l IH]; intros l' i H1 H2; simpl in *; [lia|]. destruct l' as [|y l']; simpl in *; [lia|]. destruct i; auto. apply IH; lia.
Qed.
Lemma entry_mat2 f A B r c i j : shape r c A -> shape r c B -> (i < r)%nat -> (j < c)%nat -> entry (mat2 f A B) i j = f (entry A i j) (entry B i j).
Proof.
  intros [HA1 HA2] [HB1 HB2] Hi Hj. unfold entry, mat2.
  set (g := fun ab : list R * list R => map2 f (fst ab) (snd ab)).
  rewrite (nth_indep (map g (combine A B)) [] (g ([], []))) by (rewrite map_length, combine_length; lia).
  rewrite (map_nth g), nth_combine_lt by lia. subst g. cbn [fst snd]. unfold map2.
  set (ra := nth i A []). set (rb := nth i B []).
  assert (Ea : length ra = c) by (apply HA2, nth_In; lia). assert (Eb : length rb = c) by (apply HB2, nth_In; lia).
  set (g := fun xy : R * R => f (fst xy) (snd xy)).
  rewrite (nth_indep (map g (combine ra rb)) 0 (g (0, 0))) by (rewrite map_length, combine_length; lia).
  rewrite (map_nth g), nth_combine_lt by lia. reflexivity.
Qed.
Lemma shape_mat2 f A B r c : shape r c A -> shape r c B -> shape r c (mat2 f A B).
Proof.
  intros [HA1 HA2] [HB1 HB2]. split.
  - unfold mat2. rewrite map_length, combine_length. lia.
  - intros row H. apply in_map_iff in H as [[x y] [<- H]]. cbn [fst snd]. unfold map2. rewrite map_length, combine_length.
    rewrite (HA2 x) by (eapply in_combine_l; eauto). rewrite (HB2 y) by (eapply in_combine_r; eauto). lia.
Qed.

Lemma Reqb_true x y : Reqb x y = true <-> x = y.
Proof. unfold Reqb. destruct (Req_EM_T x y); split; intro; congruence. Qed.
Lemma point_eqb_true u v : length u = length v -> point_eqb u v = true <-> u = v.
Proof.
  unfold point_eqb. revert v. induction u as [|x u IH]; intros [|y v] H; simpl in *; try discriminate; [tauto|].
  rewrite Bool.andb_true_iff, Reqb_true, IH by lia. split; [intros [-> ->]; auto|]. intro E; injection E; auto.
Qed.
Lemma point_eqb_refl u : point_eqb u u = true.
Proof. now apply point_eqb_true. Qed.
Lemma getitem_0 {A} (l : list A) x : getitem l 0 = Ok x <-> exists l', l = x :: l'.
Proof. destruct l as [|y l]; cbn; split; try discriminate; [intros [l' H]; discriminate| |]. - intro E; injection E as ->; eauto. - intros [l' E]; injection E as -> ->; auto. Qed.

(** ---- RBF covariance ---- *)
Definition same_start (X Y : list point) : bool := Nat.eqb (length X) (length Y) && point_eqb (pt X 0) (pt Y 0).
Lemma rbf_cov_spec s l n X Y : X <> [] -> exists M, rbf_cov s l n X Y = Ok M /\ shape (length X) (length Y) M /\
  forall i j, (i < length X)%nat -> (j < length Y)%nat ->
    entry M i j = rbf_call s l (pt X i) (pt Y j) + if (same_start X Y && Nat.eqb i j)%bool then n else 0.
Proof.
  intro HX. unfold rbf_cov, same_start. destruct (Nat.eqb_spec (length X) (length Y)) as [E|E]; simpl.
  - assert (HY : Y <> []) by (intros ->; destruct X; simpl in E; congruence).
    assert (EX : getitem X 0 = Ok (pt X 0)) by (destruct X; [congruence|reflexivity]).
    assert (EY : getitem Y 0 = Ok (pt Y 0)) by (destruct Y; [congruence|reflexivity]).
    rewrite EX, EY. cbn [bind]. destruct (point_eqb (pt X 0) (pt Y 0)); eexists; (split; [reflexivity|split]).
    + apply shape_add_eye, shape_pairwise.
    + intros i j Hi Hj. rewrite (entry_add_eye _ _ _ _ _ _ (shape_pairwise _ X Y) Hi Hj). now rewrite entry_pairwise.
    + apply shape_pairwise.
    + intros i j Hi Hj. rewrite entry_pairwise by auto. simpl. lra.
  - eexists; split; [reflexivity|split; [apply shape_pairwise|]]. intros i j Hi Hj. rewrite entry_pairwise by auto. lra.
Qed.
(** covariance with the zero point; noise only when the data set has one point equal to it *)
Lemma zero_cov_spec s l n z X Y : length X <> 1%nat -> length Y <> 1%nat -> X <> [] ->
  exists M, zero_cov s l n z X Y = Ok M /\ shape (length X) (length Y) M /\
  forall i j, (i < length X)%nat -> (j < length Y)%nat -> entry M i j = rbf_call s l (pt X i) z * rbf_call s l z (pt Y j) / (s * s).
Proof.
  intros HX HY HX0. unfold zero_cov.
  destruct (rbf_cov_spec s l n X [z] HX0) as [A [EA [SA HA]]]. rewrite EA. cbn [bind].
  destruct (rbf_cov_spec s l n [z] Y ltac:(discriminate)) as [B [EB [SB HB]]]. rewrite EB. cbn [bind].
  destruct SB as [SB1 SB2]. destruct B as [|rowy [|? ?]]; try discriminate. cbn [getitem nth_error bind]. eexists. split; [reflexivity|]. split.
  - split; [rewrite map_length; apply SA|]. intros row H. apply in_map_iff in H as [r [<- _]]. rewrite map_length. apply SB2. now left.
  - intros i j Hi Hj. unfold entry. destruct SA as [SA1 SA2].
    set (g := fun row : list R => map (fun cy : R => hd 0 row * cy / (s * s)) rowy).
    rewrite (nth_indep (map g A) [] (g [])) by (rewrite map_length; lia). rewrite (map_nth g). unfold g.
    assert (Ly : length rowy = length Y) by (apply SB2; now left).
    rewrite (nth_indep (map _ rowy) 0 ((fun cy : R => hd 0 (nth i A []) * cy / (s * s)) 0)) by (rewrite map_length; lia).
    rewrite (map_nth (fun cy : R => hd 0 (nth i A []) * cy / (s * s))).
    assert (F1 : hd 0 (nth i A []) = rbf_call s l (pt X i) z).
    { specialize (HA i 0%nat Hi ltac:(simpl; lia)). unfold entry in HA. unfold same_start in HA. simpl length in HA.
      rewrite (proj2 (Nat.eqb_neq _ _) HX) in HA. simpl in HA. rewrite Rplus_0_r in HA. change (pt [z] 0) with z in HA. rewrite <- HA. destruct (nth i A []); reflexivity. }
    assert (F2 : nth j rowy 0 = rbf_call s l z (pt Y j)).
    { specialize (HB 0%nat j ltac:(simpl; lia) Hj). unfold entry in HB. unfold same_start in HB. simpl length in HB.
      rewrite (proj2 (Nat.eqb_neq 1 (length Y)) (fun e => HY (eq_sym e))) in HB. simpl in HB. rewrite Rplus_0_r in HB. exact HB. }
    now rewrite F1, F2.
Qed.

(** general form of the covariance matrices *)
Fixpoint kentry (k : kern) (z0 : point) (on : bool) (u v : point) : R :=
  match k with
  | RBF s l n => rbf_call s l u v + if on then n else 0
  | Lin s sb c => lin_call s sb c u v
  | Per s l p => per_call s l p u v
  | ZRBF s l n z => rbf_call s l u v + (if on then n else 0) - rbf_call s l u (zero_of z z0) * rbf_call s l (zero_of z z0) v / (s * s)
  | KAdd a b => kentry a z0 on u v + kentry b z0 on u v
  | KMul a b => kentry a z0 on u v * kentry b z0 on u v
  end.
Lemma kcov_spec k X Y : X <> [] -> no_zeroed k \/ (length X <> 1%nat /\ length Y <> 1%nat) ->
  exists M, kcov k X Y = Ok M /\ shape (length X) (length Y) M /\
  forall i j, (i < length X)%nat -> (j < length Y)%nat ->
    entry M i j = kentry k (pt X 0) (same_start X Y && Nat.eqb i j)%bool (pt X i) (pt Y j).
Proof.
  intros HX HZ. induction k as [s l n|s sb c|s l p|s l n z|a IHa b IHb|a IHa b IHb]; cbn [kcov kentry].
  - apply rbf_cov_spec; auto.
  - eexists; split; [reflexivity|split; [apply shape_pairwise|]]. intros. now rewrite entry_pairwise.
  - eexists; split; [reflexivity|split; [apply shape_pairwise|]]. intros. now rewrite entry_pairwise.
  - destruct HZ as [[]|[H1 H2]].
    destruct (getitem X 0) as [x0|e] eqn:E0; [|destruct X; [congruence|discriminate]]. cbn [bind].
    assert (Ez : pt X 0 = x0) by (apply getitem_0 in E0 as [l' ->]; reflexivity).
    destruct (rbf_cov_spec s l n X Y HX) as [A [EA [SA HA]]]. rewrite EA. cbn [bind].
    destruct (zero_cov_spec s l n (zero_of z x0) X Y H1 H2 HX) as [B [EB [SB HB]]]. rewrite EB. cbn [bind].
    eexists; split; [reflexivity|split; [now apply shape_mat2|]]. intros i j Hi Hj.
    rewrite (entry_mat2 _ _ _ _ _ _ _ SA SB Hi Hj), HA, HB, Ez by auto. reflexivity.
  - assert (Ha : no_zeroed a \/ (length X <> 1%nat /\ length Y <> 1%nat)) by (simpl in HZ; tauto).
    assert (Hb : no_zeroed b \/ (length X <> 1%nat /\ length Y <> 1%nat)) by (simpl in HZ; tauto).
    destruct (IHa Ha) as [A [EA [SA HA]]]. destruct (IHb Hb) as [B [EB [SB HB]]]. rewrite EA, EB. cbn [bind].
    eexists; split; [reflexivity|split; [now apply shape_mat2|]]. intros i j Hi Hj. rewrite (entry_mat2 _ _ _ _ _ _ _ SA SB Hi Hj), HA, HB by auto. reflexivity.
  - assert (Ha : no_zeroed a \/ (length X <> 1%nat /\ length Y <> 1%nat)) by (simpl in HZ; tauto).
    assert (Hb : no_zeroed b \/ (length X <> 1%nat /\ length Y <> 1%nat)) by (simpl in HZ; tauto).
    destruct (IHa Ha) as [A [EA [SA HA]]]. destruct (IHb Hb) as [B [EB [SB HB]]]. rewrite EA, EB. cbn [bind].
    eexists; split; [reflexivity|split; [now apply shape_mat2|]]. intros i j Hi Hj. rewrite (entry_mat2 _ _ _ _ _ _ _ SA SB Hi Hj), HA, HB by auto. reflexivity.
Qed.

(** ---- symmetry ---- *)
Lemma combine_swap {A B C} (f : A * B -> C) (g : B * A -> C) u v : (forall a b, f (a, b) = g (b, a)) -> map f (combine u v) = map g (combine v u).
Proof. intro H. revert v. induction u as [|a u IH]; intros [|b v]; simpl; auto. now rewrite H, IH. Qed.
Lemma sqdist_sym u v : sqdist u v = sqdist v u.
Proof. unfold sqdist. f_equal. apply combine_swap. intros; simpl; ring. Qed.
Lemma l1dist_sym u v : l1dist u v = l1dist v u.
Proof. unfold l1dist. f_equal. apply combine_swap. intros; simpl. apply Rabs_minus_sym. Qed.
Lemma rbf_call_sym s l u v : rbf_call s l u v = rbf_call s l v u.
Proof. unfold rbf_call. now rewrite sqdist_sym. Qed.
Lemma lin_call_sym s sb c u v : lin_call s sb c u v = lin_call s sb c v u.
Proof. unfold lin_call. do 3 f_equal. apply combine_swap. intros; simpl; ring. Qed.
Lemma per_call_sym s l p u v : per_call s l p u v = per_call s l p v u.
Proof. unfold per_call. now rewrite l1dist_sym. Qed.
Lemma kcall_sym k u v : length u = length v -> kcall k u v = kcall k v u.
Proof.
  intro H. induction k as [s l n|s sb c|s l p|s l n z|a IHa b IHb|a IHa b IHb]; cbn [kcall].
  - apply rbf_call_sym. - apply lin_call_sym. - apply per_call_sym.
  - rewrite (rbf_call_sym s l u v). assert (E : zero_of z u = zero_of z v) by (destruct z; simpl; now rewrite ?H). rewrite E. ring.
  - now rewrite IHa, IHb. - now rewrite IHa, IHb.
Qed.
Lemma kentry_sym k z0 on u v : kentry k z0 on u v = kentry k z0 on v u.
Proof.
  induction k as [s l n|s sb c|s l p|s l n z|a IHa b IHb|a IHa b IHb]; cbn [kentry].
  - now rewrite rbf_call_sym. - apply lin_call_sym. - apply per_call_sym.
  - rewrite (rbf_call_sym s l u v), (rbf_call_sym s l u), (rbf_call_sym s l _ v). unfold Rdiv. ring.
  - now rewrite IHa, IHb. - now rewrite IHa, IHb.
Qed.
Lemma kentry_zero k z0 z1 on u v : length z0 = length z1 -> kentry k z0 on u v = kentry k z1 on u v.
Proof.
  intro H. induction k as [s l n|s sb c|s l p|s l n z|a IHa b IHb|a IHa b IHb]; cbn [kentry]; auto; try (now rewrite IHa, IHb).
  assert (E : zero_of z z0 = zero_of z z1) by (destruct z; simpl; now rewrite ?H). now rewrite E.
Qed.
Lemma pt_In X i : (i < length X)%nat -> In (pt X i) X.
Proof. intro H. apply nth_In. exact H. Qed.
Lemma point_eqb_sym u v : point_eqb u v = point_eqb v u.
Proof.
  unfold point_eqb. revert v. induction u as [|x u IH]; intros [|y v]; simpl; auto. rewrite IH. f_equal. unfold Reqb. destruct (Req_EM_T x y), (Req_EM_T y x); congruence.
Qed.
Lemma same_start_sym X Y : same_start X Y = same_start Y X.
Proof. unfold same_start. now rewrite Nat.eqb_sym, point_eqb_sym. Qed.
Lemma kcov_transpose k d X Y : X <> [] -> Y <> [] -> dim d X -> dim d Y ->
  no_zeroed k \/ (length X <> 1%nat /\ length Y <> 1%nat) ->
  exists M M', kcov k X Y = Ok M /\ kcov k Y X = Ok M' /\
  forall i j, (i < length X)%nat -> (j < length Y)%nat -> entry M i j = entry M' j i.
Proof.
  intros HX HY DX DY HZ. destruct (kcov_spec k X Y HX HZ) as [M [E [_ H]]].
  destruct (kcov_spec k Y X HY ltac:(tauto)) as [M' [E' [_ H']]]. exists M, M'. do 2 (split; auto). intros i j Hi Hj.
  rewrite H, H' by auto. rewrite same_start_sym, Nat.eqb_sym, kentry_sym. apply kentry_zero.
  rewrite (DX (pt X 0)), (DY (pt Y 0)); auto; apply pt_In; destruct X, Y; simpl; try congruence; lia.
Qed.

(** ---- positive semidefiniteness ---- *)
Lemma dot_sumn (f : R -> R -> R) d : forall u v, length u = d -> length v = d ->
  rsum (map (fun ab : R * R => f (fst ab) (snd ab)) (combine u v)) = sumn d (fun k => f (nth k u 0) (nth k v 0)).
Proof.
  induction d as [|d IH]; intros [|x u] [|y v] H1 H2; try discriminate; [reflexivity|].
  cbn [combine map]. rewrite sumn_first. unfold rsum in *. cbn [fold_right]. cbn [fst snd nth]. f_equal. apply IH; simpl in *; lia.
Qed.
Lemma sqdist_expand d u v : length u = d -> length v = d ->
  sqdist u v = sumn d (fun k => nth k u 0 * nth k u 0) + sumn d (fun k => nth k v 0 * nth k v 0) - 2 * sumn d (fun k => nth k u 0 * nth k v 0).
Proof.
  intros H1 H2. unfold sqdist. rewrite (dot_sumn (fun a b => (a - b) * (a - b)) d u v H1 H2).
  rewrite <- sumn_plus, <- sumn_scale, <- sumn_minus. apply sumn_ext. intros. ring.
Qed.
Lemma psd_dot (n d : nat) (x : nat -> point) (f : R -> R) : psd n (fun i j => sumn d (fun k => f (nth k (x i) 0) * f (nth k (x j) 0))).
Proof. apply (psd_sum n d (fun k i j => f (nth k (x i) 0) * f (nth k (x j) 0))). intros k _. apply (psd_rank1 n (fun i => f (nth k (x i) 0))). Qed.
Lemma rbf_psd s l n d (x : nat -> point) : l <> 0 -> (forall i, (i < n)%nat -> length (x i) = d) -> psd n (fun i j => rbf_call s l (x i) (x j)).
Proof.
  intros Hl Hd. set (q := fun i => sumn d (fun k => nth k (x i) 0 * nth k (x i) 0)).
  set (D := fun i j => sumn d (fun k => nth k (x i) 0 * nth k (x j) 0)).
  assert (HD : psd n (fun i j => / (l * l) * D i j)).
  { apply psd_scale; [|apply (psd_dot n d x (fun t => t))]. apply Rlt_le, Rinv_0_lt_compat. nra. }
  assert (SD : symmetric n (fun i j => / (l * l) * D i j)).
  { intros i j _ _. f_equal. unfold D. apply sumn_ext. intros. ring. }
  apply (psd_ext n (fun i j => s * s * (exp (- q i / (2 * l * l)) * exp (- q j / (2 * l * l)) * exp (/ (l * l) * D i j)))).
  - intros i j Hi Hj. unfold rbf_call. f_equal. rewrite <- !exp_plus. f_equal. rewrite (sqdist_expand d) by auto. fold (q i) (q j). unfold D. field. auto.
  - apply psd_scale; [nra|]. apply (psd_diag_congr n _ (fun i => exp (- q i / (2 * l * l)))). now apply psd_exp.
Qed.
Lemma lin_psd s sb c n d (x : nat -> point) : (forall i, (i < n)%nat -> length (x i) = d) -> psd n (fun i j => lin_call s sb c (x i) (x j)).
Proof.
  intro Hd. apply (psd_ext n (fun i j => (fun _ => sb) i * (fun _ => sb) j + s ^ 2 * sumn d (fun k => (nth k (x i) 0 - c) * (nth k (x j) 0 - c)))).
  - intros i j Hi Hj. unfold lin_call. rewrite (dot_sumn (fun a b => (a - c) * (b - c)) d) by auto. simpl. ring.
  - apply psd_plus; [apply (psd_rank1 n (fun _ => sb))|]. apply psd_scale; [simpl; nra|]. apply (psd_dot n d x (fun t => t - c)).
Qed.
Lemma l1dist_1 a b : l1dist [a] [b] = Rabs (a - b).
Proof. unfold l1dist, rsum. simpl. ring. Qed.
Lemma sin_sq_abs y a : sin (a * Rabs y) * sin (a * Rabs y) = sin (a * y) * sin (a * y).
Proof.
  unfold Rabs. destruct (Rcase_abs y); auto. replace (a * - y) with (- (a * y)) by ring. rewrite sin_neg. ring.
Qed.
Lemma per_psd s l p n (x : nat -> point) : l <> 0 -> p <> 0 -> (forall i, (i < n)%nat -> length (x i) = 1%nat) -> psd n (fun i j => per_call s l p (x i) (x j)).
Proof.
  intros Hl Hp Hd. set (t := fun i => 2 * PI / p * nth 0 (x i) 0).
  assert (HC : psd n (fun i j => / (l * l) * (cos (t i) * cos (t j) + sin (t i) * sin (t j)))).
  { apply psd_scale; [apply Rlt_le, Rinv_0_lt_compat; nra|]. apply psd_plus; [apply (psd_rank1 n (fun i => cos (t i)))|apply (psd_rank1 n (fun i => sin (t i)))]. }
  assert (SC : symmetric n (fun i j => / (l * l) * (cos (t i) * cos (t j) + sin (t i) * sin (t j)))) by (intros i j _ _; ring).
  apply (psd_ext n (fun i j => s * s * exp (- / (l * l)) * exp (/ (l * l) * (cos (t i) * cos (t j) + sin (t i) * sin (t j))))).
  - intros i j Hi Hj. unfold per_call. assert (Hxi := Hd i Hi). assert (Hxj := Hd j Hj).
    destruct (x i) as [|a [|? ?]] eqn:Ei; try discriminate. destruct (x j) as [|b [|? ?]] eqn:Ej; try discriminate.
    rewrite l1dist_1, Rmult_assoc, <- exp_plus. f_equal. f_equal.
    replace (PI * Rabs (a - b) / p) with (PI / p * Rabs (a - b)) by (field; auto).
    replace (- 2 * sin (PI / p * Rabs (a - b)) * sin (PI / p * Rabs (a - b)) / (l * l)) with (- 2 * (sin (PI / p * Rabs (a - b)) * sin (PI / p * Rabs (a - b))) / (l * l)) by (field; auto).
    rewrite sin_sq_abs. rewrite <- cos_minus. unfold t. rewrite Ei, Ej. cbn [nth].
    replace (2 * PI / p * a - 2 * PI / p * b) with (2 * (PI / p * (a - b))) by (field; auto). rewrite cos_2a_sin. field. auto.
  - apply psd_scale; [|now apply psd_exp]. apply Rmult_le_pos; [nra|]. apply Rlt_le, exp_pos.
Qed.
Lemma sqdist_self u : sqdist u u = 0.
Proof. unfold sqdist. induction u as [|a u IH]; simpl; [reflexivity|]. unfold rsum in *. simpl. rewrite IH. ring. Qed.
Lemma rbf_call_self s l u : rbf_call s l u u = s * s.
Proof. unfold rbf_call. rewrite sqdist_self. replace (- 0 / (2 * l * l)) with 0 by (unfold Rdiv; ring). rewrite exp_0. ring. Qed.
Lemma zeroed_psd s l n d (x : nat -> point) z : s <> 0 -> l <> 0 -> length z = d -> (forall i, (i < n)%nat -> length (x i) = d) ->
  psd n (fun i j => rbf_call s l (x i) (x j) - rbf_call s l (x i) z * rbf_call s l z (x j) / (s * s)).
Proof.
  intros Hs Hl Hz Hd. set (y := fun i => if Nat.ltb i n then x i else z).
  assert (Hy : forall i, (i < n)%nat -> y i = x i) by (intros i Hi; unfold y; now rewrite (proj2 (Nat.ltb_lt i n) Hi)).
  assert (Hyn : y n = z) by (unfold y; now rewrite Nat.ltb_irrefl).
  assert (P : psd (S n) (fun i j => rbf_call s l (y i) (y j))).
  { apply (rbf_psd s l (S n) d); auto. intros i Hi. unfold y. destruct (Nat.ltb_spec i n); auto. }
  assert (Sy : symmetric (S n) (fun i j => rbf_call s l (y i) (y j))) by (intros i j _ _; apply rbf_call_sym).
  assert (K := psd_schur_complement n _ Sy P). cbv beta in K. rewrite !Hyn, rbf_call_self in K.
  apply (psd_ext n _ _) with (2 := K ltac:(nra)). intros i j Hi Hj. cbv beta. now rewrite !Hy.
Qed.

Definition mentry k z0 on (x : nat -> point) i j := kentry k z0 (on && Nat.eqb i j)%bool (x i) (x j).
Lemma mentry_sym k z0 on x n : symmetric n (mentry k z0 on x).
Proof. intros i j _ _. unfold mentry. rewrite Nat.eqb_sym. apply kentry_sym. Qed.
Lemma psd_noise n (A : nat -> nat -> R) on e : 0 <= e -> psd n A -> psd n (fun i j => A i j + if (on && Nat.eqb i j)%bool then e else 0).
Proof.
  intros He HA. apply psd_plus; auto. destruct on; simpl.
  - apply (psd_diag n (fun _ => e)). auto.
  - apply (psd_ext n (fun i j => (fun _ => 0) i * (fun _ => 0) j)); [intros; ring|apply (psd_rank1 n (fun _ => 0))].
Qed.
Lemma mentry_psd k z0 on d n x : valid d k -> periodic_1d d k -> length z0 = d -> (forall i, (i < n)%nat -> length (x i) = d) ->
  psd n (mentry k z0 on x).
Proof.
  intros Hv Hp Hz Hd. induction k as [s l e|s sb c|s l p|s l e z|a IHa b IHb|a IHa b IHb]; cbn [valid periodic_1d] in *; unfold mentry in *; cbn [kentry].
  - apply (psd_noise n (fun i j => rbf_call s l (x i) (x j))); [tauto|]. apply (rbf_psd s l n d); tauto.
  - now apply (lin_psd s sb c n d).
  - subst d. apply per_psd; tauto.
  - destruct Hv as [Hs [Hl [He Hzz]]]. set (w := zero_of z z0).
    apply (psd_ext n (fun i j => (rbf_call s l (x i) (x j) - rbf_call s l (x i) w * rbf_call s l w (x j) / (s * s)) + if (on && Nat.eqb i j)%bool then e else 0)).
    + intros i j _ _. ring.
    + apply (psd_noise n (fun i j => rbf_call s l (x i) (x j) - rbf_call s l (x i) w * rbf_call s l w (x j) / (s * s))); auto.
      apply (zeroed_psd s l n d); auto. unfold w. destruct z; simpl; auto. now rewrite repeat_length.
  - apply psd_plus; [apply IHa|apply IHb]; tauto.
  - apply psd_schur_product; [apply (mentry_sym a z0 on x n)|apply IHa|apply IHb]; tauto.
Qed.
Lemma kcov_psd k d X : X <> [] -> dim d X -> valid d k -> periodic_1d d k -> no_zeroed k \/ (2 <= length X)%nat ->
  exists M, kcov k X X = Ok M /\ shape (length X) (length X) M /\ symmetric (length X) (entry M) /\ psd (length X) (entry M).
Proof.
  intros HX HD Hv Hp HZ. assert (HZ' : no_zeroed k \/ (length X <> 1%nat /\ length X <> 1%nat)) by (destruct HZ; [tauto|right; lia]).
  destruct (kcov_spec k X X HX HZ') as [M [E [HS H]]]. exists M. do 2 (split; auto).
  assert (Hl : forall i, (i < length X)%nat -> length (pt X i) = d) by (intros i Hi; now apply HD, pt_In).
  split.
  - intros i j Hi Hj. rewrite !H by auto. rewrite Nat.eqb_sym. apply kentry_sym.
  - apply (psd_ext _ (mentry k (pt X 0) (same_start X X) (pt X))); [intros i j Hi Hj; now rewrite H|].
    apply (mentry_psd k _ _ d); auto. apply Hl. destruct X; [congruence|simpl; lia].
Qed.
Lemma kentry_off k z0 u v : no_zeroed k -> kentry k z0 false u v = kcall k u v.
Proof.
  induction k as [s l e|s sb c|s l p|s l e z|a IHa b IHb|a IHa b IHb]; cbn [no_zeroed kentry kcall]; intro H; auto; try tauto.
  - apply Rplus_0_r. - now rewrite IHa, IHb by tauto. - now rewrite IHa, IHb by tauto.
Qed.
Lemma kentry_on k z0 u v : no_zeroed k -> kentry k z0 true u v = noisy k u v.
Proof.
  induction k as [s l e|s sb c|s l p|s l e z|a IHa b IHb|a IHa b IHb]; cbn [no_zeroed kentry noisy]; intro H; auto; try tauto.
  - now rewrite IHa, IHb by tauto. - now rewrite IHa, IHb by tauto.
Qed.
Lemma kcall_psd k d X : dim d X -> valid d k -> periodic_1d d k -> no_zeroed k -> psd (length X) (fun i j => kcall k (pt X i) (pt X j)).
Proof.
  intros HD Hv Hp HZ. apply (psd_ext _ (mentry k (repeat 0 d) false (pt X))).
  - intros i j _ _. unfold mentry. simpl. now apply kentry_off.
  - apply (mentry_psd k _ _ d); auto; [apply repeat_length|]. intros i Hi. now apply HD, pt_In.
Qed.
