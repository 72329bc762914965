(** Lemmas about the pictures of a run. *)
From Coq Require Import Reals Lra Lia List ZArith.
From Verif Require Import M_Base M_RBase M_Pairs M_Store M_Viz S_Viz P_RBase.
Import ListNotations.
Local Open Scope R_scope.

Lemma nth_tick a b n i d : (i < n)%nat -> nth i (linspace a b n) d = tick a b n i.
Proof.
  intro H. unfold linspace. rewrite (nth_indep _ d (a + INR 0 * ((b - a) / INR (n - 1)))) by (rewrite map_length, seq_length; exact H).
  rewrite (map_nth (fun i => a + INR i * ((b - a) / INR (n - 1))) (seq 0 n) 0%nat). rewrite seq_nth by exact H. cbn [Nat.add]. unfold tick, Rdiv. ring.
Qed.
Lemma len_linspace a b n : length (linspace a b n) = n.
Proof. unfold linspace. rewrite map_length. apply seq_length. Qed.

Lemma concat_nth {A} (d : A) (c : nat) (ls : list (list A)) : forall i j, Forall (fun l => length l = c) ls -> (i < length ls)%nat -> (j < c)%nat ->
  nth (i * c + j) (concat ls) d = nth j (nth i ls []) d.
Proof.
  induction ls as [|l ls IH]; intros i j F Hi Hj; cbn [length] in Hi; [lia|]. inversion F as [|? ? L F']; subst. cbn [concat].
  destruct i as [|i].
  - cbn [Nat.mul Nat.add nth]. apply app_nth1. lia.
  - rewrite app_nth2 by nia. replace (S i * length l + j - length l)%nat with (i * length l + j)%nat by nia. cbn [nth]. apply IH; auto. lia.
Qed.
Lemma concat_len {A} (c : nat) (ls : list (list A)) : Forall (fun l => length l = c) ls -> length (concat ls) = (length ls * c)%nat.
Proof. induction 1 as [|l ls L F IH]; [reflexivity|]. cbn [concat length]. rewrite app_length, IH, L. reflexivity. Qed.
Lemma mesh_X_rows x y : Forall (fun l => length l = length x) (mesh_X x y).
Proof. unfold mesh_X. apply Forall_forall. intros l H. apply in_map_iff in H. destruct H as (? & <- & _). reflexivity. Qed.
Lemma mesh_Y_rows x y : Forall (fun l => length l = length x) (mesh_Y x y).
Proof. unfold mesh_Y. apply Forall_forall. intros l H. apply in_map_iff in H. destruct H as (? & <- & _). apply map_length. Qed.
Lemma nth_const {A B} (f : A -> B) (l : list A) i d e : (i < length l)%nat -> nth i (map f l) d = f (nth i l e).
Proof. intro H. rewrite (nth_indep _ d (f e)) by (rewrite map_length; exact H). apply map_nth. Qed.
Lemma mesh_X_nth x y i j d : (i < length y)%nat -> nth j (nth i (mesh_X x y) []) d = nth j x d.
Proof. intro H. unfold mesh_X. rewrite (nth_const _ y i [] 0 H). reflexivity. Qed.
Lemma mesh_Y_nth x y i j d : (i < length y)%nat -> (j < length x)%nat -> nth j (nth i (mesh_Y x y) []) d = nth i y d.
Proof.
  intros H K. unfold mesh_Y. rewrite (nth_const _ y i [] d H). rewrite (nth_const (fun _ => nth i y d) x j d 0 K). reflexivity.
Qed.
Lemma grid_len x y : length (grid_pts x y) = (length y * length x)%nat.
Proof.
  unfold grid_pts. rewrite combine_length, (concat_len (length x)), (concat_len (length x)) by (apply mesh_X_rows || apply mesh_Y_rows).
  unfold mesh_X, mesh_Y. rewrite !map_length. lia.
Qed.
Lemma grid_nth x y i j d : (i < length y)%nat -> (j < length x)%nat -> nth (i * length x + j) (grid_pts x y) d = (nth j x (fst d), nth i y (snd d)).
Proof.
  intros Hi Hj. unfold grid_pts. destruct d as [d1 d2]. rewrite combine_nth.
  - rewrite (concat_nth d1 (length x)), (concat_nth d2 (length x)); auto using mesh_X_rows, mesh_Y_rows.
    + rewrite mesh_X_nth, mesh_Y_nth by auto. reflexivity.
    + unfold mesh_Y. rewrite map_length. exact Hi.
    + unfold mesh_X. rewrite map_length. exact Hi.
  - rewrite !(concat_len (length x)) by (apply mesh_X_rows || apply mesh_Y_rows). unfold mesh_X, mesh_Y. rewrite !map_length. reflexivity.
Qed.
Lemma record_nth x0 x1 y0 y1 n i j d : (i < n)%nat -> (j < n)%nat -> nth (i * n + j) (record_pts ((x0, x1), (y0, y1)) n) d = (tick x0 x1 n j, tick y0 y1 n i).
Proof.
  intros Hi Hj. unfold record_pts. cbn [fst snd].
  assert (E := grid_nth (linspace x0 x1 n) (linspace y0 y1 n) i j d). rewrite !len_linspace in E. rewrite E by auto. rewrite !nth_tick by auto. reflexivity.
Qed.
Lemma record_len b n : length (record_pts b n) = (n * n)%nat.
Proof. unfold record_pts. rewrite grid_len, !len_linspace. reflexivity. Qed.

Lemma nth_firstn_lt {A} (l : list A) : forall n i d, (i < n)%nat -> nth i (firstn n l) d = nth i l d.
Proof. induction l as [|x l IH]; intros [|n] [|i] d H; try lia; try reflexivity. cbn [firstn nth]. apply IH. lia. Qed.
Lemma nth_skip {A} (l : list A) : forall n i d, nth i (skipn n l) d = nth (n + i) l d.
Proof. induction l as [|x l IH]; intros [|n] i d; cbn [skipn nth Nat.add]; [reflexivity|destruct i; reflexivity|reflexivity|apply IH]. Qed.
Lemma cut_nth {A} (c : nat) r : forall (l : list A) i j d, (i < r)%nat -> (j < c)%nat -> nth j (nth i (cut r c l) []) d = nth (i * c + j) l d.
Proof.
  induction r as [|r IH]; intros l i j d Hi Hj; [lia|]. cbn [cut]. destruct i as [|i].
  - cbn [nth Nat.mul Nat.add]. apply nth_firstn_lt, Hj.
  - cbn [nth]. rewrite IH by lia. rewrite nth_skip. f_equal. lia.
Qed.
Lemma picture {A} (g : R * R -> A) b n d : exists Z, reshape n n (map g (record_pts b n)) = Ok Z /\
  forall i j, (i < n)%nat -> (j < n)%nat ->
    nth j (nth i Z []) d = g (tick (fst (fst b)) (snd (fst b)) n j, tick (fst (snd b)) (snd (snd b)) n i) /\
    nth j (nth i (mesh_X (linspace (fst (fst b)) (snd (fst b)) n) (linspace (fst (snd b)) (snd (snd b)) n)) []) 0 = tick (fst (fst b)) (snd (fst b)) n j /\
    nth j (nth i (mesh_Y (linspace (fst (fst b)) (snd (fst b)) n) (linspace (fst (snd b)) (snd (snd b)) n)) []) 0 = tick (fst (snd b)) (snd (snd b)) n i.
Proof.
  destruct b as [[x0 x1] [y0 y1]]. exists (cut n n (map g (record_pts ((x0, x1), (y0, y1)) n))). split.
  - unfold reshape. rewrite map_length, record_len, Nat.eqb_refl. reflexivity.
  - cbn [fst snd]. intros i j Hi Hj. split; [|split].
    + rewrite cut_nth by auto. rewrite (nth_const g _ _ d (0, 0)) by (rewrite record_len; nia). rewrite record_nth by auto. reflexivity.
    + rewrite mesh_X_nth by (rewrite len_linspace; exact Hi). apply nth_tick, Hj.
    + rewrite mesh_Y_nth by (rewrite len_linspace; auto). apply nth_tick, Hi.
Qed.
Lemma tick_range a b n i : a <= b -> (i < n)%nat -> a <= tick a b n i <= b.
Proof.
  intros H Hi. unfold tick. destruct (Nat.eq_dec n 1) as [->|N].
  - assert (i = 0%nat) by lia. subst. cbn [INR]. unfold Rdiv. rewrite !Rmult_0_l. lra.
  - assert (0 < INR (n - 1)) by (apply lt_0_INR; lia).
    assert (0 <= INR i <= INR (n - 1)) by (split; [apply pos_INR|apply le_INR; lia]).
    assert (0 <= INR i / INR (n - 1) <= 1).
    { split; [apply Rmult_le_pos; [lra|left; apply Rinv_0_lt_compat; lra]|]. apply (Rmult_le_reg_r (INR (n - 1))); [lra|]. unfold Rdiv. rewrite Rmult_assoc, Rinv_l by lra. lra. }
    replace (INR i * (b - a) / INR (n - 1)) with (INR i / INR (n - 1) * (b - a)) by (field; lra). nra.
Qed.
Lemma tick_ends a b n : (2 <= n)%nat -> tick a b n 0 = a /\ tick a b n (n - 1) = b.
Proof. intro H. assert (0 < INR (n - 1)) by (apply lt_0_INR; lia). unfold tick. split; [cbn [INR]; field; lra|field; lra]. Qed.
Lemma in_nth_pt (l : list (R * R)) p : In p l -> exists k, (k < length l)%nat /\ nth k l (0, 0) = p.
Proof. intro H. destruct (In_nth l p (0, 0) H) as (k & ? & ?). eauto. Qed.
Lemma record_in x0 x1 y0 y1 n p : In p (record_pts ((x0, x1), (y0, y1)) n) <-> exists i j, (i < n)%nat /\ (j < n)%nat /\ p = (tick x0 x1 n j, tick y0 y1 n i).
Proof.
  split.
  - intro H. destruct (in_nth_pt _ _ H) as (k & Hk & E). rewrite record_len in Hk.
    assert (n <> 0)%nat by (intro; subst; cbn in Hk; lia).
    exists (k / n)%nat, (k mod n)%nat.
    assert (Hi : (k / n < n)%nat) by (apply Nat.div_lt_upper_bound; lia). assert (Hj : (k mod n < n)%nat) by (apply Nat.mod_upper_bound; lia).
    split; [exact Hi|]. split; [exact Hj|]. rewrite <- E. rewrite <- (record_nth x0 x1 y0 y1 n (k / n) (k mod n) (0, 0) Hi Hj).
    f_equal. rewrite (Nat.div_mod k n) at 1 by lia. lia.
  - intros (i & j & Hi & Hj & ->). rewrite <- (record_nth x0 x1 y0 y1 n i j (0, 0) Hi Hj). apply nth_In. rewrite record_len. nia.
Qed.
Lemma covers x0 x1 y0 y1 n : x0 <= x1 -> y0 <= y1 -> (2 <= n)%nat ->
  (forall p, In p (record_pts ((x0, x1), (y0, y1)) n) -> in_box x0 x1 y0 y1 p) /\
  (forall x y, (x = x0 \/ x = x1) -> (y = y0 \/ y = y1) -> In (x, y) (record_pts ((x0, x1), (y0, y1)) n)).
Proof.
  intros Hx Hy Hn. split.
  - intros p H. apply record_in in H. destruct H as (i & j & Hi & Hj & ->). split; cbn [fst snd]; apply tick_range; auto.
  - intros x y Ex Ey. apply record_in. destruct (tick_ends x0 x1 n Hn) as [A1 A2], (tick_ends y0 y1 n Hn) as [B1 B2].
    destruct Ex as [->| ->], Ey as [->| ->].
    + exists 0%nat, 0%nat. rewrite A1, B1. repeat split; lia.
    + exists (n - 1)%nat, 0%nat. rewrite A1, B2. repeat split; lia.
    + exists 0%nat, (n - 1)%nat. rewrite A2, B1. repeat split; lia.
    + exists (n - 1)%nat, (n - 1)%nat. rewrite A2, B2. repeat split; lia.
Qed.
Lemma default_one n p : In p (record_pts default_bounds n) -> p = (0, 2).
Proof.
  unfold default_bounds. rewrite record_in. intros (i & j & _ & _ & ->). unfold tick, Rdiv. f_equal; ring.
Qed.

Lemma max_abs_ge l x : In x l -> Rabs x <= max_abs l.
Proof. intro H. unfold max_abs. destruct (rmax1_ge (map Rabs l) 0) as [_ K]. apply K, in_map, H. Qed.
Lemma max_abs_in l : max_abs l = 0 \/ exists x, In x l /\ Rabs x = max_abs l.
Proof.
  unfold max_abs. destruct (rmax1_in (map Rabs l) 0) as [H|H]; [left; auto|]. right. apply in_map_iff in H. destruct H as (x & E & I). eauto.
Qed.
Lemma max_abs_0 l : max_abs l = 0 <-> forall x, In x l -> x = 0.
Proof.
  split.
  - intros E x H. apply max_abs_ge in H. rewrite E in H. destruct (Req_dec x 0) as [|N]; [auto|]. pose proof (Rabs_pos_lt x N). lra.
  - intro H. destruct (max_abs_in l) as [|(x & I & E)]; [auto|]. rewrite (H x I), Rabs_R0 in E. auto.
Qed.
Lemma max_abs_nn l : 0 <= max_abs l.
Proof. unfold max_abs. exact (proj1 (rmax1_ge _ 0)). Qed.
Lemma scaled l : (exists x, In x l /\ x <> 0) -> exists c, 0 < c /\ scale_fake l = map (fun x => Some (x / c)) l /\
  (forall x, In x l -> -1 <= x / c <= 1) /\ (exists x, In x l /\ Rabs (x / c) = 1).
Proof.
  intros (x & I & N). assert (M : max_abs l <> 0) by (intro E; apply N, (proj1 (max_abs_0 l) E x I)).
  assert (P : 0 < max_abs l) by (pose proof (max_abs_nn l); lra). assert (V := Rinv_0_lt_compat _ P). exists (max_abs l). split; [exact P|]. split; [|split].
  - unfold scale_fake. destruct (Req_EM_T (max_abs l) 0); [contradiction|]. reflexivity.
  - intros y Iy. pose proof (max_abs_ge l y Iy) as A. assert (A' : - max_abs l <= y <= max_abs l) by (split; [pose proof (Rle_abs (- y)); rewrite Rabs_Ropp in *; lra|pose proof (Rle_abs y); lra]).
    split; apply (Rmult_le_reg_r (max_abs l)); auto; unfold Rdiv; rewrite Rmult_assoc, Rinv_l by auto; lra.
  - destruct (max_abs_in l) as [|(y & Iy & E)]; [contradiction|]. exists y. split; [exact Iy|]. unfold Rdiv.
    rewrite Rabs_mult, E, (Rabs_pos_eq (/ max_abs l)) by lra. apply Rinv_r, M.
Qed.
Lemma zero_scaled l : (forall x, In x l -> x = 0) -> scale_fake l = map (fun _ => None) l.
Proof. intro H. apply max_abs_0 in H. unfold scale_fake. destruct (Req_EM_T (max_abs l) 0); [reflexivity|contradiction]. Qed.

Lemma shown_all {A} (X : list A) : shown (Some X) None = X.
Proof.
  unfold shown, slice, slice_bound. cbn [Z.ltb Z.compare]. replace (Z.of_nat (length X) <? 0)%Z with false by (symmetry; apply Z.ltb_ge; lia).
  rewrite Nat2Z.id, Nat.min_id. cbn [Z.to_nat Nat.min]. rewrite Nat.min_0_l || idtac. cbn [skipn]. rewrite Nat.sub_0_r. apply firstn_all.
Qed.
Lemma shown_after {A} (X : list A) a b : (b <= length X)%nat -> shown (Some X) (Some (a, Z.of_nat b)) = skipn b X.
Proof.
  intro H. unfold shown, slice, slice_bound. replace (Z.of_nat (length X) <? 0)%Z with false by (symmetry; apply Z.ltb_ge; lia).
  replace (Z.of_nat b <? 0)%Z with false by (symmetry; apply Z.ltb_ge; lia). rewrite !Nat2Z.id, Nat.min_id, (Nat.min_l b) by exact H.
  rewrite <- (skipn_length b X). apply firstn_all.
Qed.
Lemma shown_tail {A} (before prior after : list A) :
  shown (Some (before ++ prior ++ after)) (Some (Z.of_nat (length before), Z.of_nat (length before + length prior))) = after.
Proof.
  rewrite shown_after by (rewrite !app_length; lia). rewrite app_assoc, <- app_length. rewrite skipn_app, skipn_all, Nat.sub_diag. reflexivity.
Qed.

Lemma arrow_ok pts label i j pi pj w : getitem pts i = Ok pi -> getitem pts j = Ok pj -> preferred_of label i j = Some w ->
  exists a lg sm, draw_pair pts (label, i, j) = Ok a /\ getitem pts w = Ok lg /\ (w = i /\ sm = pj \/ w = j /\ sm = pi) /\
    line_from a = sm /\ line_to a = lg /\ points_to (atail a) (ahead a) sm lg /\ on_segment (atail a) sm lg /\ on_segment (ahead a) sm lg.
Proof.
  intros Hi Hj. unfold preferred_of, draw_pair. change (get_dk 1 0) with (-1)%Z.
  assert (D : forall p q : R * R, points_to (between p q (1 / 2)) (between p q (1 / 2 + 1 / 1000)) p q /\ on_segment (between p q (1 / 2)) p q /\ on_segment (between p q (1 / 2 + 1 / 1000)) p q).
  { intros p q. unfold between. split; [|split].
    - exists (1 / 1000). cbn [fst snd]. split; [lra|]. split; lra.
    - exists (1 / 2). cbn [fst snd]. split; [lra|]. split; lra.
    - exists (1 / 2 + 1 / 1000). cbn [fst snd]. split; [lra|]. split; lra. }
  destruct (Z.eqb label (-1)) eqn:E1.
  - intros [= <-]. rewrite Hi, Hj. cbn [bind]. do 3 eexists. split; [reflexivity|]. split; [reflexivity|]. split; [left; auto|].
    cbn [line_from line_to atail ahead]. split; [reflexivity|]. split; [reflexivity|]. apply D.
  - destruct (Z.eqb label 1); [|discriminate]. intros [= <-]. rewrite Hi, Hj. cbn [bind]. do 3 eexists. split; [reflexivity|]. split; [reflexivity|]. split; [right; auto|].
    cbn [line_from line_to atail ahead]. split; [reflexivity|]. split; [reflexivity|]. apply D.
Qed.
Lemma arrow_other pts label i j : label <> (-1)%Z -> draw_pair pts (label, i, j) = draw_pair pts (1%Z, i, j).
Proof. intro H. unfold draw_pair. change (get_dk 1 0) with (-1)%Z. apply Z.eqb_neq in H. rewrite H. reflexivity. Qed.

Lemma row_std_nn l : 0 <= row_std l.
Proof. apply sqrt_pos. Qed.
Lemma rsum_nn l : (forall x, In x l -> 0 <= x) -> 0 <= rsum l.
Proof. induction l as [|x l IH]; intro H; cbn [rsum]; [lra|]. assert (0 <= x) by (apply H; left; auto). assert (0 <= rsum l) by (apply IH; intros; apply H; right; auto). lra. Qed.
Lemma rsum_nn_0 l : (forall x, In x l -> 0 <= x) -> rsum l = 0 -> forall x, In x l -> x = 0.
Proof.
  induction l as [|y l IH]; intros H E x I; [destruct I|]. cbn [rsum] in E. assert (0 <= y) by (apply H; left; auto).
  assert (K : forall z, In z l -> 0 <= z) by (intros; apply H; right; auto). pose proof (rsum_nn l K). destruct I as [<-|I]; [lra|]. apply IH; auto. lra.
Qed.
Lemma band_ok l : l <> [] -> exists e, 0 <= e /\ band l = Some (row_mean l - e, row_mean l, row_mean l + e) /\
  INR (length l) * e ^ 2 = rsum (map (fun x => (x - row_mean l) ^ 2) l) / INR (length l) /\ (e = 0 <-> forall x, In x l -> x = row_mean l).
Proof.
  intro H. assert (P : 0 < INR (length l)) by (apply lt_0_INR; destruct l; [congruence|cbn; lia]). assert (Ps := sqrt_lt_R0 _ P).
  assert (Q : 0 <= rsum (map (fun x => (x - row_mean l) ^ 2) l)).
  { apply rsum_nn. intros x Hx. apply in_map_iff in Hx. destruct Hx as (y & <- & _). apply pow2_ge_0. }
  assert (Q' : 0 <= rsum (map (fun x => (x - row_mean l) ^ 2) l) / INR (length l)) by (apply Rmult_le_pos; [exact Q|left; apply Rinv_0_lt_compat, P]).
  assert (E : row_std l = sqrt (rsum (map (fun x => (x - row_mean l) ^ 2) l) / INR (length l))).
  { unfold row_std, row_mean at 1. rewrite map_length. reflexivity. }
  exists (row_std l / sqrt (INR (length l))). split; [|split; [|split]].
  - apply Rmult_le_pos; [apply row_std_nn|left; apply Rinv_0_lt_compat, Ps].
  - unfold band. destruct l; [congruence|]. cbv zeta. rewrite Rmult_1_l. reflexivity.
  - rewrite Rpow_mult_distr || idtac. unfold Rdiv at 1. rewrite Rpow_mult_distr, pow_inv. rewrite (pow2_sqrt (INR (length l))) by lra. rewrite E, pow2_sqrt by exact Q'. field. lra.
  - rewrite E. split.
    + intro Z. assert (Z1 : sqrt (rsum (map (fun x => (x - row_mean l) ^ 2) l) / INR (length l)) = 0).
      { apply (Rmult_eq_reg_r (/ sqrt (INR (length l)))); [|apply Rinv_neq_0_compat; lra]. rewrite Rmult_0_l. exact Z. }
      apply sqrt_eq_0 in Z1; [|exact Q']. assert (Z2 : rsum (map (fun x => (x - row_mean l) ^ 2) l) = 0).
      { apply (Rmult_eq_reg_r (/ INR (length l))); [|apply Rinv_neq_0_compat; lra]. rewrite Rmult_0_l. exact Z1. }
      intros x Hx. assert (Z3 : (x - row_mean l) ^ 2 = 0).
      { apply (rsum_nn_0 (map (fun x => (x - row_mean l) ^ 2) l)); auto.
        - intros y Hy. apply in_map_iff in Hy. destruct Hy as (z & <- & _). apply pow2_ge_0.
        - apply in_map_iff. exists x. auto. }
      assert (x - row_mean l = 0) by (apply Rsqr_0_uniq; rewrite Rsqr_pow2; exact Z3). lra.
    + intro A. replace (rsum (map (fun x => (x - row_mean l) ^ 2) l)) with 0.
      * unfold Rdiv. rewrite Rmult_0_l, sqrt_0. ring.
      * symmetry. revert A. generalize (row_mean l) as m. intros m A. clear - A. induction l as [|x l IH]; [reflexivity|]. cbn [map rsum].
        rewrite (A x) by (left; auto). rewrite IH by (intros; apply A; right; auto). ring.
Qed.
