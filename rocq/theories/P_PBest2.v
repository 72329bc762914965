(** Lemmas: chances of being the best from a joint normal distribution. *)
From Verif Require Import M_Base M_RBase M_Select M_Normal M_GP M_Acq M_OrdProbit M_HyperGrad M_PBest M_UCB.
From Verif Require Import P_RBase P_Select P_Normal P_Psd P_Det P_PBest S_PBest S_GP M_UCB.
From Coq Require Import Reals Lra Lia List.
Import ListNotations.
Local Open Scope R_scope.

Lemma skip_other i j : skip i j = other i j.
Proof. reflexivity. Qed.
Lemma others_map m i : (i < S m)%nat -> others (S m) i = map (other i) (seq 0 m).
Proof.
  intro H. unfold others. replace (S m) with (i + S (m - i))%nat by lia. rewrite seq_app, filter_app. cbn [seq filter].
  rewrite Nat.add_0_l. rewrite Nat.eqb_refl. cbn [negb].
  replace (seq 0 m) with (seq 0 i ++ seq i (m - i)) by (rewrite <- seq_app; f_equal; lia). rewrite map_app. f_equal.
  - rewrite <- (map_id (filter _ _)). assert (F : forall l, (forall x, In x l -> (x < i)%nat) -> map (fun x => x) (filter (fun j => negb (Nat.eqb j i)) l) = map (other i) l).
    { induction l as [|x l IH]; intro K; auto. cbn [filter map]. assert (Hx : (x < i)%nat) by (apply K; now left).
      assert (E : Nat.eqb x i = false) by (apply Nat.eqb_neq; lia). rewrite E. cbn [negb map]. f_equal.
      - unfold other. destruct (Nat.ltb_spec x i); lia. - apply IH. intros y Hy. apply K. now right. }
    apply F. intros x Hx. apply in_seq in Hx. lia.
  - assert (F : forall l, (forall x, In x l -> (i <= x)%nat) -> filter (fun j => negb (Nat.eqb j i)) (map S l) = map (other i) l).
    { induction l as [|x l IH]; intro K; auto. cbn [filter map]. assert (Hx : (i <= x)%nat) by (apply K; now left).
      assert (E : Nat.eqb (S x) i = false) by (apply Nat.eqb_neq; lia). rewrite E. cbn [negb map]. f_equal.
      - unfold other. destruct (Nat.ltb_spec x i); lia. - apply IH. intros y Hy. apply K. now right. }
    rewrite <- seq_shift. apply F. intros x Hx. apply in_seq in Hx. lia.
Qed.
Lemma K_star_length K m i : (i < S m)%nat -> length (K_star K (S m) i) = m.
Proof. intro H. unfold K_star. now rewrite map_length, others_map, map_length, seq_length. Qed.
Lemma K_star_at K m i a b : (i < S m)%nat -> (a < m)%nat -> (b < m)%nat ->
  mat_at (K_star K (S m) i) a b = mat_at K i i + mat_at K (other i a) (other i b) - mat_at K i (other i a) - mat_at K i (other i b).
Proof.
  intros Hi Ha Hb. unfold K_star. rewrite others_map by auto. unfold mat_at at 1. rewrite !map_map.
  rewrite (nth_map_seq (fun x => map (fun b0 => mat_at K i i + mat_at K (other i x) b0 - mat_at K i (other i x) - mat_at K i b0) (map (other i) (seq 0 m)))) by auto.
  rewrite map_map. now rewrite nth_map_seq.
Qed.
Lemma sumn_other m : forall i f, (i < S m)%nat -> sumn (S m) f = f i + sumn m (fun j => f (other i j)).
Proof.
  induction m as [|m IH]; intros i f H. { replace i with O by lia. simpl. lra. }
  destruct (Nat.eq_dec i (S m)) as [->|N].
  - change (sumn (S (S m)) f) with (sumn (S m) f + f (S m)). rewrite (sumn_ext (S m) (fun j => f (other (S m) j)) f). lra.
    intros j Hj. unfold other. destruct (Nat.ltb_spec j (S m)); [auto|lia].
  - change (sumn (S (S m)) f) with (sumn (S m) f + f (S m)). rewrite (IH i f) by lia.
    change (sumn (S m) (fun j => f (other i j))) with (sumn m (fun j => f (other i j)) + f (other i m)).
    replace (other i m) with (S m). lra. unfold other. destruct (Nat.ltb_spec m i); lia.
Qed.
Lemma qform_other m A i e : (i < S m)%nat -> symmetric (S m) A -> qform (S m) A e =
  e i ^ 2 * A i i + 2 * e i * sumn m (fun j => e (other i j) * A i (other i j)) + qform m (fun a b => A (other i a) (other i b)) (fun j => e (other i j)).
Proof.
  intros Hi HS. assert (L : forall j, (j < m)%nat -> (other i j < S m)%nat) by (intros j Hj; unfold other; destruct (Nat.ltb j i); lia).
  unfold qform. rewrite (sumn_other m i _ Hi). rewrite (sumn_other m i (fun j => e i * e j * A i j) Hi).
  rewrite (sumn_ext m (fun j => sumn (S m) (fun j0 => e (other i j) * e j0 * A (other i j) j0))
    (fun a => e i * (e (other i a) * A i (other i a)) + sumn m (fun b => e (other i a) * e (other i b) * A (other i a) (other i b)))).
  - rewrite sumn_plus, sumn_scale. rewrite (sumn_ext m (fun j => e i * e (other i j) * A i (other i j)) (fun j => e i * (e (other i j) * A i (other i j)))) by (intros; ring).
    rewrite sumn_scale. ring.
  - intros j Hj. rewrite (sumn_other m i _ Hi). rewrite (HS (other i j) i) by auto. ring.
Qed.
Lemma double_sum m c (d k : nat -> R) (X : nat -> nat -> R) :
  sumn m (fun a => sumn m (fun b => c * (d a * d b) + X a b - (d a * k a) * d b - d a * (d b * k b))) =
  c * (sumn m d * sumn m d) + sumn m (fun a => sumn m (fun b => X a b)) - sumn m (fun a => d a * k a) * sumn m d - sumn m d * sumn m (fun b => d b * k b).
Proof.
  rewrite !sumn_prod. rewrite <- sumn_scale, <- sumn_plus, <- sumn_minus, <- sumn_minus. apply sumn_ext. intros a _.
  rewrite <- sumn_scale, <- sumn_plus, <- sumn_minus, <- sumn_minus. apply sumn_ext. intros b _. reflexivity.
Qed.
Lemma K_star_qform K m i e : (i < S m)%nat -> symmetric (S m) (mat_at K) -> sumn (S m) e = 0 ->
  qform m (mat_at (K_star K (S m) i)) (fun j => e (other i j)) = qform (S m) (mat_at K) e.
Proof.
  intros Hi HS He. rewrite (qform_other m _ i e Hi HS). rewrite (sumn_other m i e Hi) in He.
  set (d := fun j => e (other i j)). set (k := fun j => mat_at K i (other i j)).
  assert (Ee : e i = - sumn m d) by (unfold d; lra). rewrite Ee.
  assert (Q := double_sum m (mat_at K i i) d k (fun a b => d a * d b * mat_at K (other i a) (other i b))).
  unfold qform. transitivity (sumn m (fun a => sumn m (fun b => mat_at K i i * (d a * d b) + d a * d b * mat_at K (other i a) (other i b) - (d a * k a) * d b - d a * (d b * k b)))).
  - apply sumn_ext. intros a Ha. apply sumn_ext. intros b Hb. rewrite K_star_at by auto. unfold k, d. ring.
  - rewrite Q. unfold k, d. ring.
Qed.
Definition contrast (m i : nat) (c : nat -> R) : nat -> R := fun a => if Nat.eqb a i then - sumn m c else c (if Nat.ltb a i then a else pred a).
Lemma contrast_other m i c j : contrast m i c (other i j) = c j.
Proof.
  unfold contrast, other. destruct (Nat.ltb_spec j i).
  - destruct (Nat.eqb_spec j i); [lia|]. destruct (Nat.ltb_spec j i); [auto|lia].
  - destruct (Nat.eqb_spec (S j) i); [lia|]. destruct (Nat.ltb_spec (S j) i); [lia|auto].
Qed.
Lemma contrast_sum m i c : (i < S m)%nat -> sumn (S m) (contrast m i c) = 0.
Proof.
  intro H. rewrite (sumn_other m i _ H). rewrite (sumn_ext m _ c) by (intros; apply contrast_other). unfold contrast. rewrite Nat.eqb_refl. lra.
Qed.
Lemma K_star_psd K m i : (i < S m)%nat -> symmetric (S m) (mat_at K) -> psd (S m) (mat_at K) -> psd m (mat_at (K_star K (S m) i)).
Proof.
  intros Hi HS HP c. rewrite <- (qform_ext m _ _ (fun j => contrast m i c (other i j)) c (fun _ _ _ _ => eq_refl) (fun j _ => contrast_other m i c j)).
  rewrite (K_star_qform K m i _ Hi HS (contrast_sum m i c Hi)). apply HP.
Qed.
Lemma K_star_pd K m i : (i < S m)%nat -> symmetric (S m) (mat_at K) -> pd (S m) (mat_at K) -> pd m (mat_at (K_star K (S m) i)).
Proof.
  intros Hi HS HP c [j [Hj Hc]]. rewrite <- (qform_ext m _ _ (fun j => contrast m i c (other i j)) c (fun _ _ _ _ => eq_refl) (fun j _ => contrast_other m i c j)).
  rewrite (K_star_qform K m i _ Hi HS (contrast_sum m i c Hi)). apply HP. exists (other i j). rewrite contrast_other. split; auto.
  unfold other. destruct (Nat.ltb j i); lia.
Qed.
Lemma K_star_sym K m i : (i < S m)%nat -> symmetric (S m) (mat_at K) -> symmetric m (mat_at (K_star K (S m) i)).
Proof.
  intros Hi HS a b Ha Hb. rewrite !K_star_at by auto. rewrite (HS (other i a) (other i b)). lra.
  all: unfold other; match goal with |- context [Nat.ltb ?x ?y] => destruct (Nat.ltb x y) end; lia.
Qed.
Lemma mu_star_at mu m i a : (i < S m)%nat -> (a < m)%nat -> length (mu_star mu (S m) i) = m /\ nth a (mu_star mu (S m) i) 0 = nth (other i a) mu 0 - nth i mu 0.
Proof.
  intros Hi Ha. unfold mu_star. rewrite others_map, map_map by auto. split; [now rewrite map_length, seq_length|]. now rewrite nth_map_seq.
Qed.

(** ---- normalisation ---- *)
Lemma mapM_seq_nth (f : nat -> result R) (q : nat -> R) n : (forall i, (i < n)%nat -> f i = Ok (q i)) -> mapM f (seq 0 n) = Ok (map q (seq 0 n)).
Proof.
  intro H. assert (K : forall l, (forall i, In i l -> (i < n)%nat) -> mapM f l = Ok (map q l)).
  { induction l as [|i l IH]; intro L; auto. simpl. rewrite (H i) by (apply L; now left). cbn [bind].
    rewrite IH by (intros j Hj; apply L; now right). reflexivity. }
  apply K. intros i Hi. apply in_seq in Hi. lia.
Qed.
Lemma gp_chances ext cm n mu K (q : nat -> R) : (0 < n)%nat ->
  (forall i, (i < n)%nat -> 0 < q i /\ calc_cdf ext cm (mu_star mu n i) (K_star K n i) = Ok (Some (q i))) ->
  exists p, p_B_pref_gp ext cm n mu K = Ok p /\ chances n p /\ forall i, (i < n)%nat -> nth i p 0 = q i / sumn n q.
Proof.
  intros Hn H. unfold p_B_pref_gp. rewrite (mapM_seq_nth _ q) by (intros i Hi; rewrite (proj2 (H i Hi)); reflexivity). cbn [bind].
  set (p := map q (seq 0 n)). assert (Hl : length p = n) by (unfold p; now rewrite map_length, seq_length).
  assert (Hs : rsum p = sumn n q). { rewrite rsum_sumn, Hl. apply sumn_ext. intros i Hi. unfold p. now rewrite nth_map_seq. }
  assert (Hpos : 0 < sumn n q).
  { destruct n as [|n]; [lia|]. rewrite sumn_first. assert (0 < q O) by (apply H; lia).
    assert (0 <= sumn n (fun i => q (S i))) by (apply sumn_nonneg; intros i Hi; left; apply H; lia). lra. }
  exists (map (fun x => x / rsum p) p). split; [reflexivity|]. split; [split; [now rewrite map_length|split]|].
  - intros x Hx. apply in_map_iff in Hx. destruct Hx as [y [<- Hy]]. unfold p in Hy. apply in_map_iff in Hy. destruct Hy as [i [<- Hi]].
    apply in_seq in Hi. rewrite Hs. left. apply Rmult_lt_0_compat; [apply H; lia|now apply Rinv_0_lt_compat].
  - rewrite rsum_div, Hs. field. lra.
  - intros i Hi. rewrite Hs. unfold p. rewrite map_map. now rewrite nth_map_seq.
Qed.
Lemma gp_two ext mu0 mu1 a b c : exact_1d (ext_mvn ext) -> 0 < a + c - 2 * b ->
  p_B_pref_gp ext CdfAuto 2 [mu0; mu1] [[a; b]; [b; c]] = Ok [ndtr ((mu0 - mu1) / sqrt (a + c - 2 * b)); ndtr ((mu1 - mu0) / sqrt (a + c - 2 * b))].
Proof.
  intros E Hv. set (s := sqrt (a + c - 2 * b)). set (q := fun i : nat => if Nat.eqb i 0 then ndtr ((mu0 - mu1) / s) else ndtr ((mu1 - mu0) / s)).
  unfold p_B_pref_gp. rewrite (mapM_seq_nth _ q).
  - cbn [bind seq map]. unfold q at 1 2 4 5. cbn [Nat.eqb]. unfold q. cbn [Nat.eqb]. unfold rsum. cbn [fold_right].
    replace ((mu1 - mu0) / s) with (- ((mu0 - mu1) / s)). 2:{ unfold Rdiv. ring. } rewrite ndtr_sym. f_equal. f_equal; [field; lra|f_equal; field; lra].
  - intros i Hi. assert (Hi' : i = O \/ i = 1%nat) by lia. unfold s in *.
    destruct Hi' as [->| ->].
    + change (mu_star [mu0; mu1] 2 0) with [mu1 - mu0]. change (K_star [[a; b]; [b; c]] 2 0) with [[a + c - b - b]]. unfold calc_cdf. cbn [map].
      rewrite E by lra. cbn [bind]. unfold q. cbn [Nat.eqb]. do 2 f_equal. f_equal; [lra|]. f_equal. lra.
    + change (mu_star [mu0; mu1] 2 1) with [mu0 - mu1]. change (K_star [[a; b]; [b; c]] 2 1) with [[c + a - b - b]]. unfold calc_cdf. cbn [map].
      rewrite E by lra. cbn [bind]. unfold q. cbn [Nat.eqb]. do 2 f_equal. f_equal; [lra|]. f_equal. lra.
Qed.
Lemma gp_two_order ext mu0 mu1 a b c p0 p1 : exact_1d (ext_mvn ext) -> 0 < a + c - 2 * b ->
  p_B_pref_gp ext CdfAuto 2 [mu0; mu1] [[a; b]; [b; c]] = Ok [p0; p1] -> (mu1 < mu0 <-> p1 < p0) /\ p0 + p1 = 1.
Proof.
  intros E Hv H. rewrite (gp_two ext mu0 mu1 a b c E Hv) in H. injection H as <- <-. set (s := sqrt (a + c - 2 * b)).
  assert (Hs : 0 < / s) by (apply Rinv_0_lt_compat, sqrt_lt_R0; auto). split.
  - split; intro H.
    + apply ndtr_increasing. apply Rmult_lt_compat_r; auto. lra.
    + destruct (Rlt_or_le mu1 mu0) as [L|L]; auto. exfalso. assert (ndtr ((mu0 - mu1) / s) <= ndtr ((mu1 - mu0) / s)); [|lra].
      apply ndtr_le. apply Rmult_le_compat_r; lra.
  - replace ((mu1 - mu0) / s) with (- ((mu0 - mu1) / s)) by (unfold Rdiv; ring). rewrite ndtr_sym. ring.
Qed.
Lemma probit_gp ext sigma n mu K (q : nat -> R) : (0 < n)%nat -> 0 < sigma ->
  (forall i, (i < n)%nat -> 0 < q i /\ ext_mvn ext (map Ropp (mu_star mu n i)) (K_star K n i) = Ok (q i)) ->
  exists p L, get_p_B_probit ext KindPrefGP sigma n mu K = Ok (p, L) /\ chances n p /\ forall i j, 0 < L i j < 1 /\ L i i = 1 / 2 /\ (nth i mu 0 <= nth j mu 0 -> L i j <= L j i).
Proof.
  intros Hn Hs H. destruct (gp_chances ext CdfAuto n mu K q Hn) as [p [E [C _]]].
  { intros i Hi. destruct (H i Hi) as [A B]. split; auto. unfold calc_cdf. rewrite B. reflexivity. }
  eexists p, _. split; [unfold get_p_B_probit; rewrite E; reflexivity|]. split; auto. intros i j.
  assert (P : 0 < isqrt2sig sigma). { unfold isqrt2sig. apply Rdiv_lt_0_compat; [lra|]. apply Rmult_lt_0_compat; [lra|]. apply sqrt_lt_R0. lra. }
  unfold likelihood_all_pairs. split; [apply std_norm_cdf_range|]. split.
  - replace ((nth i mu 0 - nth i mu 0) * isqrt2sig sigma) with 0 by ring. rewrite std_norm_cdf_id by lra. apply ndtr_0.
  - intro Hm. apply std_norm_cdf_le. apply Rmult_le_compat_r; lra.
Qed.
