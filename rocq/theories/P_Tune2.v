(** The objective of beta: chance of the best option. *)
From Coquelicot Require Import Coquelicot.
From Coq Require Import Reals Lra Lia List Bool.
From Verif Require Import M_Base M_RBase M_Normal M_Util M_Select M_Tune S_Util S_Tune P_RBase P_Normal P_Util P_Tune.
Import ListNotations.
Local Open Scope R_scope.

Lemma exp_le x y : x <= y -> exp x <= exp y.
Proof. intros [H| ->]; [apply Rlt_le, exp_increasing, H|lra]. Qed.
Definition top (row : list R) : R := fold_right Rmax (hd 0 row) row.
Lemma fold_max x l : (forall v, In v (x :: l) -> v <= fold_right Rmax x l) /\ In (fold_right Rmax x l) (x :: l).
Proof.
  induction l as [|a l [B I]]; cbn [fold_right]; [split; [intros v [<- |[]]; lra|now left]|]. split.
  - intros v [H|[H|H]].
    + apply Rle_trans with (fold_right Rmax x l); [apply B; now left|apply Rmax_r].
    + rewrite <- H. apply Rmax_l.
    + apply Rle_trans with (fold_right Rmax x l); [apply B; now right|apply Rmax_r].
  - destruct (Rle_dec a (fold_right Rmax x l)) as [D|D]; [rewrite (Rmax_right a) by exact D|rewrite (Rmax_left a) by lra; right; now left]. destruct I as [I|I]; [now left|right; now right].
Qed.
Lemma top_spec row : row <> [] -> (forall v, In v row -> v <= top row) /\ In (top row) row.
Proof.
  destruct row as [|x row]; [congruence|]. intros _. unfold top. cbn [hd]. destruct (fold_max x (x :: row)) as [B I]. split.
  - intros v H. apply B. now right.
  - destruct I as [I|I]; [rewrite <- I at 1; now left|exact I].
Qed.
Lemma best_alt b row : row <> [] -> best_chance b row = / rsum (map (fun v => exp (b * (v - top row))) row).
Proof.
  intro N. unfold best_chance. fold (top row). assert (P := exp_pos (b * top row)).
  assert (E : rsum (map (fun v => exp (b * v)) row) = exp (b * top row) * rsum (map (fun v => exp (b * (v - top row))) row)) by (rewrite <- rsum_map_scale; apply rsum_ext; intros v _; rewrite <- exp_plus; f_equal; ring).
  rewrite E. assert (0 < rsum (map (fun v => exp (b * (v - top row))) row)). { apply rsum_pos; [destruct row; [congruence|discriminate]|]. intros x Hx. apply in_map_iff in Hx. destruct Hx as [v [<- _]]. apply exp_pos. }
  field. lra.
Qed.
Lemma tail_sum b row : row <> [] -> 0 <= b -> 1 <= rsum (map (fun v => exp (b * (v - top row))) row) <= INR (length row).
Proof.
  intros N Hb. destruct (top_spec row N) as [B I]. split.
  - apply in_split in I. destruct I as [l1 [l2 E]]. set (m := top row) in *. rewrite E, map_app, rsum_app. cbn [map]. change (rsum (?a :: ?l)) with (a + rsum l). rewrite Rminus_eq_0, Rmult_0_r, exp_0.
    assert (Q : forall l, 0 <= rsum (map (fun v => exp (b * (v - m))) l)) by (intro l; apply rsum_nonneg; intros x Hx; apply in_map_iff in Hx; destruct Hx as [v [<- _]]; apply Rlt_le, exp_pos). assert (Q1 := Q l1). assert (Q2 := Q l2). lra.
  - set (m := top row) in *. clearbody m. clear I N. induction row as [|v row IH]; [cbn; lra|]. cbn [map length]. change (rsum (?a :: ?l)) with (a + rsum l). rewrite S_INR. assert (exp (b * (v - m)) <= 1). { rewrite <- exp_0. destruct (Rle_lt_or_eq_dec v m (B v (or_introl eq_refl))) as [H|H]; [|rewrite H, Rminus_eq_0, Rmult_0_r; lra]. apply exp_le. assert (0 <= b * (m - v)) by (apply Rmult_le_pos; lra). lra. }
    specialize (IH (fun v H => B v (or_intror H))). lra.
Qed.
Lemma best_range b row : row <> [] -> 0 <= b -> / INR (length row) <= best_chance b row <= 1.
Proof.
  intros N Hb. rewrite best_alt by auto. destruct (tail_sum b row N Hb) as [A B]. split; [apply Rinv_le_contravar; lra|]. rewrite <- Rinv_1. apply Rinv_le_contravar; lra.
Qed.
Lemma best_zero row : row <> [] -> best_chance 0 row = / INR (length row).
Proof. intro N. rewrite best_alt by auto. f_equal. clear N. generalize (top row). intro m. induction row as [|v row IH]; [reflexivity|]. cbn [map length]. change (rsum (?a :: ?l)) with (a + rsum l). rewrite S_INR, IH, Rmult_0_l, exp_0. ring. Qed.
Lemma rsum_le_map {A} (f g : A -> R) l : (forall x, In x l -> f x <= g x) -> rsum (map f l) <= rsum (map g l).
Proof. induction l as [|x l IH]; intro H; cbn [map]; [lra|]. change (rsum (?a :: ?l)) with (a + rsum l). assert (A0 := H x (or_introl eq_refl)). assert (B := IH (fun y Hy => H y (or_intror Hy))). lra. Qed.
Lemma rsum_lt_map {A} (f g : A -> R) l x : (forall x, In x l -> f x <= g x) -> In x l -> f x < g x -> rsum (map f l) < rsum (map g l).
Proof.
  intros H I L. apply in_split in I. destruct I as [l1 [l2 ->]]. rewrite !map_app, !rsum_app. cbn [map]. assert (A1 := rsum_le_map f g l1 (fun y Hy => H y (in_or_app _ _ _ (or_introl Hy)))). assert (A2 : rsum (map f l2) <= rsum (map g l2)) by (apply rsum_le_map; intros y Hy; apply H; apply in_or_app; right; now right).
  change (rsum (f x :: map f l2)) with (f x + rsum (map f l2)). change (rsum (g x :: map g l2)) with (g x + rsum (map g l2)). lra.
Qed.
Lemma best_mono b c row : row <> [] -> 0 <= b <= c -> best_chance b row <= best_chance c row.
Proof.
  intros N H. rewrite !best_alt by auto. destruct (tail_sum c row N ltac:(lra)) as [P _]. apply Rinv_le_contravar; [lra|]. apply rsum_le_map. intros v Hv. apply exp_le. destruct (top_spec row N) as [B _]. specialize (B v Hv). assert (0 <= (c - b) * (top row - v)) by (apply Rmult_le_pos; lra). lra.
Qed.
Lemma best_strict b c row v : row <> [] -> 0 <= b < c -> In v row -> v < top row -> best_chance b row < best_chance c row.
Proof.
  intros N H Hv L. rewrite !best_alt by auto. destruct (tail_sum c row N ltac:(lra)) as [P _]. destruct (tail_sum b row N ltac:(lra)) as [P' _]. apply Rinv_lt_contravar; [apply Rmult_lt_0_compat; lra|]. apply (rsum_lt_map _ _ row v); auto.
  - intros w Hw. apply exp_le. destruct (top_spec row N) as [B _]. specialize (B w Hw). assert (0 <= (c - b) * (top row - w)) by (apply Rmult_le_pos; lra). lra.
  - apply exp_increasing. assert (0 < (c - b) * (top row - v)) by (apply Rmult_lt_0_compat; lra). lra.
Qed.
Lemma best_gap b d row : 0 <= b -> 0 <= d -> gap d row -> / (1 + (INR (length row) - 1) * exp (- (b * d))) <= best_chance b row.
Proof.
  intros Hb Hd [pre [m [post [E G]]]]. assert (N : row <> []) by (rewrite E; destruct pre; discriminate). rewrite best_alt by auto. destruct (tail_sum b row N Hb) as [P _]. apply Rinv_le_contravar; [lra|].
  assert (T : top row = m). { destruct (top_spec row N) as [B I]. assert (B1 := B m ltac:(rewrite E; apply in_or_app; right; now left)). set (t := top row) in *. clearbody t. rewrite E in I. apply in_app_or in I. destruct I as [I|[I|I]]; [|now symmetry|]; assert (K : t <= m - d) by (apply G, in_or_app; auto); lra. }
  rewrite T. rewrite E at 1. rewrite map_app, rsum_app. cbn [map]. change (rsum (?a :: ?l)) with (a + rsum l). rewrite Rminus_eq_0, Rmult_0_r, exp_0.
  assert (Q : forall l, (forall v, In v l -> v <= m - d) -> rsum (map (fun v => exp (b * (v - m))) l) <= INR (length l) * exp (- (b * d))).
  { induction l as [|v l IH]; intro H; [cbn; lra|]. cbn [map length]. change (rsum (?a :: ?l)) with (a + rsum l). rewrite S_INR. assert (K := IH (fun w Hw => H w (or_intror Hw))). assert (exp (b * (v - m)) <= exp (- (b * d))). { apply exp_le. assert (V := H v (or_introl eq_refl)). assert (0 <= b * (m - d - v)) by (apply Rmult_le_pos; lra). lra. } lra. }
  assert (Q1 := Q pre (fun v H => G v (in_or_app _ _ _ (or_introl H)))). assert (Q2 := Q post (fun v H => G v (in_or_app _ _ _ (or_intror H)))).
  replace (INR (length row) - 1) with (INR (length pre) + INR (length post)) by (rewrite E, app_length, plus_INR; cbn [length]; rewrite S_INR; ring). lra.
Qed.

(** ---- the averages ---- *)
Lemma accuracy_mono q b c y : queries q y -> 0 <= b <= c -> accuracy b y <= accuracy c y.
Proof.
  intros [N [Q L]] H. unfold accuracy, average. rewrite !map_length. apply Rmult_le_compat_r; [apply Rlt_le, Rinv_0_lt_compat, lt_0_INR; destruct y; [congruence|cbn; lia]|]. apply rsum_le_map. intros row Hr. apply best_mono; auto. intro E. apply L in Hr. rewrite E in Hr. cbn in Hr. lia.
Qed.
Lemma accuracy_strict q b c y row v w : queries q y -> 0 <= b < c -> In row y -> In v row -> In w row -> v <> w -> accuracy b y < accuracy c y.
Proof.
  intros [N [Q L]] H Hr Hv Hw Ne. assert (NE : forall row, In row y -> row <> []) by (intros r Hr' E; apply L in Hr'; rewrite E in Hr'; cbn in Hr'; lia).
  unfold accuracy, average. rewrite !map_length. apply Rmult_lt_compat_r; [apply Rinv_0_lt_compat, lt_0_INR; destruct y; [congruence|cbn; lia]|]. apply (rsum_lt_map _ _ y row); auto; [intros r Hr'; apply best_mono; [now apply NE|lra]|].
  destruct (top_spec row (NE row Hr)) as [B _]. assert (Bv := B v Hv). assert (Bw := B w Hw). destruct (Rlt_dec v (top row)); [now apply (best_strict b c row v); auto|apply (best_strict b c row w); auto; lra].
Qed.
Lemma average_bounds l lo hi : l <> [] -> (forall x, In x l -> lo <= x <= hi) -> lo <= average l <= hi.
Proof.
  intros N H. unfold average. assert (P : 0 < INR (length l)) by (apply lt_0_INR; destruct l; [congruence|cbn; lia]). assert (B : lo * INR (length l) <= rsum l <= hi * INR (length l)).
  { clear N P. induction l as [|x l IH]; [cbn; lra|]. cbn [length]. rewrite S_INR. change (rsum (x :: l)) with (x + rsum l). assert (A := H x (or_introl eq_refl)). assert (K := IH (fun y Hy => H y (or_intror Hy))). lra. }
  split; apply Rmult_le_reg_r with (INR (length l)); auto; unfold Rdiv; rewrite Rmult_assoc, Rinv_l by lra; lra.
Qed.
Lemma accuracy_range q b y : queries q y -> 0 <= b -> / INR q <= accuracy b y <= 1.
Proof.
  intros [N [Q L]] H. apply average_bounds; [destruct y; [congruence|discriminate]|]. intros x Hx. apply in_map_iff in Hx. destruct Hx as [row [<- Hr]]. rewrite <- (L row Hr). apply best_range; auto. intro E. apply L in Hr. rewrite E in Hr. cbn in Hr. lia.
Qed.
Lemma accuracy_gap q b d y : queries q y -> 0 <= b -> 0 <= d -> (forall row, In row y -> gap d row) -> / (1 + (INR q - 1) * exp (- (b * d))) <= accuracy b y.
Proof.
  intros [N [Q L]] Hb Hd G. apply (average_bounds (map (best_chance b) y) _ 1); [destruct y; [congruence|discriminate]|]. intros x Hx. apply in_map_iff in Hx. destruct Hx as [row [<- Hr]]. split; [rewrite <- (L row Hr); apply best_gap; auto|]. apply best_range; auto. intro E. apply L in Hr. rewrite E in Hr. cbn in Hr. lia.
Qed.
Lemma accuracy_tied q b y : queries q y -> (forall row v w, In row y -> In v row -> In w row -> v = w) -> accuracy b y = / INR q.
Proof.
  intros [N [Q L]] T. assert (E : forall x, In x (map (best_chance b) y) -> / INR q <= x <= / INR q).
  { intros x Hx. apply in_map_iff in Hx. destruct Hx as [row [<- Hr]]. assert (NE : row <> []) by (intro E; apply L in Hr; rewrite E in Hr; cbn in Hr; lia). rewrite best_alt by auto. destruct (top_spec row NE) as [_ I].
    replace (rsum (map (fun v => exp (b * (v - top row))) row)) with (INR q); [lra|]. rewrite <- (L row Hr). assert (Z : forall v, In v row -> v = top row) by (intros v Hv; now apply (T row)). revert Z. generalize (top row). clear. intro m. induction row as [|v row IH]; intro Z; [reflexivity|]. cbn [map length]. change (rsum (?a :: ?l)) with (a + rsum l). rewrite S_INR, <- IH by (intros w Hw; apply Z; now right). rewrite (Z v (or_introl eq_refl)), Rminus_eq_0, Rmult_0_r, exp_0. ring. }
  assert (K := average_bounds (map (best_chance b) y) _ _ ltac:(destruct y; [congruence|discriminate]) E). unfold accuracy. lra.
Qed.
(** ---- the code ---- *)
Lemma best_code b row : row <> [] -> 0 <= b -> exists out, p_human_choice row b = Ok out /\ np_max out = Ok (best_chance b row).
Proof.
  intros N Hb. destruct (p_human_choice_softmax row b N) as [mx E]. exists (softmax 0 b row). split; [rewrite E; f_equal; now apply softmax_shift|].
  destruct (np_max_ok (softmax 0 b row)) as [m [E2 [I B]]]; [unfold softmax; rewrite map_map; destruct row; [congruence|discriminate]|]. rewrite E2. f_equal.
  assert (Sm : forall x, In x (softmax 0 b row) <-> exists v, In v row /\ x = exp (b * v) / rsum (map (fun v => exp (b * v)) row)).
  { intro x. unfold softmax. rewrite map_map. assert (S0 : map (fun v => exp ((v - 0) * b)) row = map (fun v => exp (b * v)) row) by (apply map_ext; intro v; f_equal; ring). rewrite S0. rewrite in_map_iff. split; intros [v [A1 A2]]; exists v; split; auto; [rewrite <- A1; do 2 f_equal; ring|rewrite A2; do 2 f_equal; ring]. }
  assert (P : 0 < rsum (map (fun v => exp (b * v)) row)) by (apply rsum_pos; [destruct row; [congruence|discriminate]|]; intros x Hx; apply in_map_iff in Hx; destruct Hx as [v [<- _]]; apply exp_pos).
  destruct (top_spec row N) as [T1 T2]. unfold best_chance. fold (top row). apply Rle_antisym.
  - apply Sm in I. destruct I as [v [Hv ->]]. apply Rmult_le_compat_r; [apply Rlt_le, Rinv_0_lt_compat; auto|]. apply exp_le. apply Rmult_le_compat_l; auto.
  - apply B. apply Sm. exists (top row). split; auto.
Qed.
Lemma pmax_code q b y : queries q y -> 0 <= b -> exists p, p_human_choice_rows y b = Ok p /\ mapM np_max p = Ok (map (best_chance b) y).
Proof.
  intros [N [Q L]] Hb. assert (NE : forall row, In row y -> row <> []) by (intros r Hr E; apply L in Hr; rewrite E in Hr; cbn in Hr; lia). rewrite p_human_choice_rows_spec by auto. clear N L Q. induction y as [|row y IH]; [exists []; split; reflexivity|].
  destruct (best_code b row (NE row (or_introl eq_refl)) Hb) as [out [E1 E2]]. destruct IH as [p [E3 E4]]; [intros; apply NE; now right|]. exists (out :: p). cbn [mapM map]. rewrite E1. cbn [bind]. rewrite E3. cbn [bind]. split; [reflexivity|]. rewrite E2. cbn [bind]. rewrite E4. reflexivity.
Qed.
Lemma sampled_code q b p y pf : queries q y -> 0 <= b -> sampled_objective b p y pf = Ok ((num_true (map (fun up => Rleb (fst up) (snd up)) (combine pf (map (best_chance b) y))) / INR (length y) - p) ^ 2).
Proof. intros H Hb. destruct (pmax_code q b y H Hb) as [pr [E1 E2]]. unfold sampled_objective. rewrite E1. cbn [bind]. rewrite E2. reflexivity. Qed.
Lemma best_chances q b y : queries q y -> 0 <= b -> chance_list (map (best_chance b) y) /\ map (best_chance b) y <> [].
Proof.
  intros [N [Q L]] Hb. split; [|destruct y; [congruence|discriminate]]. intros x Hx. apply in_map_iff in Hx. destruct Hx as [row [<- Hr]]. assert (NE : row <> []) by (intro E; apply L in Hr; rewrite E in Hr; cbn in Hr; lia). assert (K := best_range b row NE Hb). assert (0 < / INR (length row)) by (apply Rinv_0_lt_compat, lt_0_INR; rewrite (L row Hr); lia). lra.
Qed.
Lemma sampled_mean q b p y : queries q y -> 0 <= b -> exists Phi, (forall pf, sampled_objective b p y pf = Ok (Phi pf)) /\
  unit_mean (length y) Phi ((accuracy b y - p) ^ 2 + spread (map (best_chance b) y)) /\ 0 <= spread (map (best_chance b) y) <= / (4 * INR (length y)).
Proof.
  intros H Hb. destruct (best_chances q b y H Hb) as [C N]. eexists. split; [intro pf; now apply (sampled_code q)|]. split.
  - unfold accuracy. rewrite <- (bern_fraction (map (best_chance b) y) p N). rewrite map_length. assert (K := unit_bern (map (best_chance b) y) C (fun l => (num_true l / INR (length y) - p) ^ 2)). rewrite map_length in K. exact K.
  - assert (K := spread_bound (map (best_chance b) y) N C). now rewrite map_length in K.
Qed.
Lemma sampled_accept q b p y r t : queries q y -> 0 <= b -> 0 < r -> 0 < t -> r + t <= Rabs (accuracy b y - p) ->
  exists Phi c, (forall pf, sampled_objective b p y pf = Ok (Phi pf)) /\ unit_mean (length y) (fun pf => if Rltb (Phi pf) (r ^ 2) then 1 else 0) c /\ c <= / (4 * INR (length y) * t ^ 2).
Proof.
  intros H Hb Hr Ht G. destruct (best_chances q b y H Hb) as [C N]. eexists. eexists. split; [intro pf; now apply (sampled_code q)|]. split.
  - assert (K := unit_bern (map (best_chance b) y) C (fun l => accepted (r ^ 2) ((num_true l / INR (length y) - p) ^ 2))). rewrite map_length in K. exact K.
  - assert (K := bern_accept (map (best_chance b) y) p r t N C Hr Ht G). rewrite map_length in K. exact K.
Qed.
