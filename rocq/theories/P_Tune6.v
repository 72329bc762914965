(** The chance that the best of any number of options is rated best. *)
From Coquelicot Require Import Coquelicot.
From Coq Require Import Reals Lra Lia List Bool.
From Verif Require Import M_Base M_RBase M_Normal M_Util M_Select M_User M_Tune S_Util S_User S_Tune P_RBase P_Normal P_Util P_User P_Tune P_Tune2 P_Tune3 P_Tune4 P_Tune5.
Import ListNotations.
Local Open Scope R_scope.

(** ---- the product of the chances of the others to be below ---- *)
Definition below (cs : list R) (x : R) : R := fold_right (fun c a => ndtr (x + c) * a) 1 cs.
Lemma below_range cs x : 0 < below cs x <= 1.
Proof. induction cs as [|c cs IH]; cbn; [lra|]. assert (K := ndtr_range (x + c)). unfold below in *. nra. Qed.
Lemma below_unit cs : unit_cont (below cs).
Proof.
  split; [|intro x; assert (K := below_range cs x); lra]. intro x. induction cs as [|c cs IH]; cbn; [apply continuous_const|]. apply (continuous_mult (fun x => ndtr (x + c)) (below cs)); [apply ndtr_shift_cts|exact IH].
Qed.
Lemma below_mono cs ds x : Forall2 Rle cs ds -> below cs x <= below ds x.
Proof. induction 1 as [|c d cs ds H F IH]; cbn; [lra|]. apply Rmult_le_compat; [apply Rlt_le, ndtr_range|apply Rlt_le, below_range|apply ndtr_le; lra|exact IH]. Qed.
Lemma below_strict cs ds x c d : Forall2 Rle cs ds -> In (c, d) (combine cs ds) -> c < d -> below cs x < below ds x.
Proof.
  intros F I L. revert I. induction F as [|c' d' cs ds H F IH]; intros I; cbn in *; [destruct I|]. assert (B := below_range cs x). assert (B' := below_range ds x). assert (R1 := ndtr_range (x + c')). assert (R2 := ndtr_range (x + d')). destruct I as [I|I].
  - injection I as -> ->. assert (K := ndtr_increasing (x + c) (x + d) ltac:(lra)). assert (M := below_mono cs ds x F). unfold below in *. nra.
  - specialize (IH I). assert (K := ndtr_le (x + c') (x + d') ltac:(lra)). unfold below in *. nra.
Qed.
Lemma below_zero n x : below (repeat 0 n) x = ndtr x ^ n.
Proof. induction n as [|n IH]; cbn; [reflexivity|]. unfold below in IH. rewrite IH, Rplus_0_r. reflexivity. Qed.
Lemma below_lt_1 c cs x : below (c :: cs) x < 1.
Proof. cbn. assert (K := ndtr_range (x + c)). assert (B := below_range cs x). unfold below in B. nra. Qed.
Lemma below_union cs x : 1 - rsum (map (fun c => 1 - ndtr (x + c)) cs) <= below cs x.
Proof.
  induction cs as [|c cs IH]; cbn; [lra|]. assert (K := ndtr_range (x + c)). assert (B := below_range cs x). unfold below, rsum in *. cbn. nra.
Qed.
Lemma one_tail : tail_of (fun _ => 1) (fun t => 1 - ndtr t) 1.
Proof.
  split; [|split; intro t; assert (K := ndtr_range t); lra]. intro t. replace (- (npdf t * 1)) with (minus 0 (npdf t)) by (unfold minus, plus, opp; cbn; ring). apply (is_derive_minus (fun _ => 1) ndtr); [apply (is_derive_const 1)|apply ndtr_derive].
Qed.
Lemma one_unit : unit_cont (fun _ => 1).
Proof. split; [intro; apply continuous_const|intro; lra]. Qed.
Lemma pow_tail n : tail_of (fun x => ndtr x ^ n) (fun t => (1 - ndtr t ^ S n) / INR (S n)) (/ INR (S n)).
Proof.
  assert (P : 0 < INR (S n)) by (apply lt_0_INR; lia). assert (B : forall p m, 0 <= p <= 1 -> 0 <= 1 - p ^ m <= INR m * (1 - p)).
  { intros p m Hp. induction m as [|m IH]; [cbn; lra|]. rewrite S_INR. cbn [pow]. assert (0 <= p ^ m) by (apply pow_le; lra). assert (INR m * (1 - p) * (1 - p) >= 0) by (assert (Q := pos_INR m); assert (0 <= INR m * (1 - p)) by nra; nra). nra. }
  assert (Q1 : forall p, 0 <= p <= 1 -> 0 <= p ^ S n <= p) by (intros p Hp; cbn; assert (K := B p n Hp); assert (0 <= p ^ n) by (apply pow_le; lra); nra). assert (P1 : 1 <= INR (S n)) by (rewrite S_INR; assert (Q := pos_INR n); lra).
  split; [|split].
  - intro t. assert (D := is_derive_pow ndtr (S n) t _ (ndtr_derive t)). assert (D2 := is_derive_scal (fun x => 1 - ndtr x ^ S n) t (/ INR (S n)) (minus 0 (INR (S n) * npdf t * ndtr t ^ pred (S n))) (is_derive_minus (fun _ => 1) (fun x => ndtr x ^ S n) t _ _ (is_derive_const 1 t) D)).
    apply (is_derive_ext (fun x => / INR (S n) * (1 - ndtr x ^ S n))); [intro x; apply Rmult_comm|]. replace (- (npdf t * ndtr t ^ n)) with (/ INR (S n) * minus 0 (INR (S n) * npdf t * ndtr t ^ pred (S n))); [exact D2|]. cbn [pred]. unfold minus, plus, opp; cbn -[INR]. field. lra.
  - intro t. assert (R1 := ndtr_range t). destruct (B (ndtr t) (S n) ltac:(lra)) as [B1 B2]. split; [apply Rmult_le_pos; [lra|apply Rlt_le, Rinv_0_lt_compat; lra]|]. apply Rmult_le_reg_r with (INR (S n)); [lra|]. unfold Rdiv. rewrite Rmult_assoc, Rinv_l, Rmult_1_r by lra. lra.
  - intro t. assert (R1 := ndtr_range t). destruct (Q1 (ndtr t) ltac:(lra)) as [B1 B2]. replace (/ INR (S n) - (1 - ndtr t ^ S n) / INR (S n)) with (ndtr t ^ S n * / INR (S n)) by (field; lra). assert (I1 : 0 < / INR (S n) <= 1) by (split; [apply Rinv_0_lt_compat; lra|rewrite <- Rinv_1; apply Rinv_le_contravar; lra]). nra.
Qed.

(** ---- the draws one after another: those of the options before the best, that of the best, those behind it ---- *)
Fixpoint behind (x : R) (cs zs : list R) : R :=
  match cs, zs with c :: cs', z :: zs' => ind (Rleb z (x + c)) * behind x cs' zs' | _, _ => 1 end.
Fixpoint sel (pre post : list R) (t : R) (zs : list R) : R :=
  match pre, zs with
  | [], x :: zs' => ind (Rltb t x) * behind x post zs'
  | c :: pre', z :: zs' => sel pre' post (Rmax t (z - c)) zs'
  | _, [] => 0
  end.
Definition sel0 (pre post zs : list R) : R :=
  match pre, zs with
  | [], x :: zs' => behind x post zs'
  | c :: pre', z :: zs' => sel pre' post (z - c) zs'
  | _, [] => 0
  end.
Lemma behind_mean x cs : forall k, normal_mean (length cs) (fun zs => k * behind x cs zs) (k * below cs x).
Proof.
  induction cs as [|c cs IH]; intro k; cbn [length normal_mean]; [reflexivity|]. exists (fun z => k * ind (Rleb z (x + c)) * below cs x). split.
  - intro z. apply (normal_mean_ext _ (fun zs => k * ind (Rleb z (x + c)) * behind x cs zs)); [intros zs _; cbn; ring|apply IH].
  - replace (k * below (c :: cs) x) with (k * below cs x * ndtr (x + c) + 0 * (1 - ndtr (x + c))) by (cbn; unfold below; ring). apply step_line; intros z Hz; [rewrite (proj2 (Rleb_true _ _)) by lra|rewrite (proj2 (Rleb_false _ _)) by lra]; cbn; ring.
Qed.
Lemma sel_mean post : forall pre t A l, tail_of (below (pre ++ post)) A l -> normal_mean (length pre + S (length post)) (sel pre post t) (A t).
Proof.
  induction pre as [|c pre IH]; intros t A l T; cbn [length app Nat.add normal_mean].
  - exists (fun x => ind (Rltb t x) * below post x). split; [|apply (tail_above _ A l); [apply below_unit|exact T]]. intro z. apply (behind_mean z post (ind (Rltb t z))).
  - destruct (tail_exists (below (pre ++ post)) (below_unit _)) as [A0 [l0 T0]]. exists (fun z => A0 (Rmax t (z - c))). split; [|apply (tail_max (below (pre ++ post)) A0 l0 A l c t (below_unit _) T0 T)]. intro z. exact (IH (Rmax t (z - c)) A0 l0 T0).
Qed.
Lemma sel0_mean pre post l : is_RInt_gen (fun z => npdf z * below (pre ++ post) z) (Rbar_locally m_infty) (Rbar_locally p_infty) l -> normal_mean (length pre + S (length post)) (sel0 pre post) l.
Proof.
  intro H. destruct (tail_exists (below (pre ++ post)) (below_unit _)) as [A [l' T]]. rewrite (tail_unique _ A l' l (below_unit _) T H). destruct pre as [|c pre]; cbn [length app Nat.add normal_mean].
  - exists (fun x => below post x). split; [|apply (tail_total _ A l'); [apply below_unit|exact T]]. intro z. apply (normal_mean_ext _ (fun zs => 1 * behind z post zs)); [intros zs _; cbn; ring|]. replace (below post z) with (1 * below post z) by ring. apply (behind_mean z post 1).
  - destruct (tail_exists (below (pre ++ post)) (below_unit _)) as [A0 [l0 T0]]. exists (fun z => A0 (z - c)). split; [|apply (tail_first (below (pre ++ post)) A0 l0 A l' c (below_unit _) T0 T)]. intro z. exact (sel_mean post pre (z - c) A0 l0 T0).
Qed.
Lemma behind_bit x cs : forall zs, length zs = length cs -> (Forall2 (fun c z => z <= x + c) cs zs -> behind x cs zs = 1) /\ (~ Forall2 (fun c z => z <= x + c) cs zs -> behind x cs zs = 0).
Proof.
  induction cs as [|c cs IH]; intros [|z zs] L; try discriminate; [split; [reflexivity|intro N; exfalso; apply N; constructor]|]. cbn [behind]. destruct (IH zs ltac:(cbn in L; congruence)) as [I1 I0]. destruct (Rleb z (x + c)) eqn:E; cbn.
  - apply Rleb_true in E. split; intro H; [inversion H; subst; rewrite I1 by auto; ring|]. rewrite I0; [ring|]. intro F. apply H. now constructor.
  - apply Rleb_false in E. split; intro H; [inversion H; subst; lra|ring].
Qed.
Lemma sel_bit post : forall pre t za x zb, length za = length pre -> length zb = length post ->
  (t < x -> Forall2 (fun c z => z < x + c) pre za -> Forall2 (fun c z => z <= x + c) post zb -> sel pre post t (za ++ x :: zb) = 1) /\
  (~ (t < x /\ Forall2 (fun c z => z < x + c) pre za /\ Forall2 (fun c z => z <= x + c) post zb) -> sel pre post t (za ++ x :: zb) = 0).
Proof.
  induction pre as [|c pre IH]; intros t [|z za] x zb L1 L2; try discriminate; cbn [sel app].
  - destruct (behind_bit x post zb L2) as [B1 B0]. destruct (Rltb t x) eqn:E; cbn.
    + apply Rltb_true in E. split; [intros _ _ H; rewrite B1 by auto; ring|]. intro N. rewrite B0; [ring|]. intro F. apply N. repeat split; auto.
    + apply Rltb_false in E. split; [intro; lra|intro; ring].
  - destruct (IH (Rmax t (z - c)) za x zb ltac:(cbn in L1; congruence) L2) as [I1 I0]. split.
    + intros Ht F1 F2. inversion F1; subst. apply I1; auto. apply Rmax_lub_lt; lra.
    + intro N. apply I0. intros [H1 [H2 H3]]. apply N. assert (M1 := Rmax_l t (z - c)). assert (M2 := Rmax_r t (z - c)). split; [lra|]. split; auto. constructor; auto. lra.
Qed.
Lemma sel0_bit pre post za x zb : length za = length pre -> length zb = length post ->
  (Forall2 (fun c z => z < x + c) pre za -> Forall2 (fun c z => z <= x + c) post zb -> sel0 pre post (za ++ x :: zb) = 1) /\
  (~ (Forall2 (fun c z => z < x + c) pre za /\ Forall2 (fun c z => z <= x + c) post zb) -> sel0 pre post (za ++ x :: zb) = 0).
Proof.
  destruct pre as [|c pre]; destruct za as [|z za]; intros L1 L2; try discriminate; cbn [sel0 app].
  - destruct (behind_bit x post zb L2) as [B1 B0]. split; [intros _ H; now apply B1|]. intro N. apply B0. intro F. apply N. split; [constructor|exact F].
  - destruct (sel_bit post pre (z - c) za x zb ltac:(cbn in L1; congruence) L2) as [I1 I0]. split.
    + intros F1 F2. inversion F1; subst. apply I1; auto. lra.
    + intro N. apply I0. intros [H1 [H2 H3]]. apply N. split; auto. constructor; auto. lra.
Qed.

(** ---- the first largest entry ---- *)
Lemma first_max_split a b c : first_max (a ++ b :: c) (length a) <-> Forall (fun x => x < b) a /\ Forall (fun x => x <= b) c.
Proof.
  assert (Nb : nth_error (a ++ b :: c) (length a) = Some b) by (rewrite nth_error_app2, Nat.sub_diag by lia; reflexivity). split.
  - intros [m [E [U F]]]. rewrite Nb in E. injection E as <-. split; apply Forall_forall; intros x Hx.
    + apply In_nth_error in Hx. destruct Hx as [j Hj]. assert (Lj : (j < length a)%nat) by (apply nth_error_Some; congruence). apply (F j x Lj). now rewrite nth_error_app1.
    + apply In_nth_error in Hx. destruct Hx as [j Hj]. apply (U (length a + S j)%nat x). rewrite nth_error_app2 by lia. replace (length a + S j - length a)%nat with (S j) by lia. exact Hj.
  - intros [F1 F2]. exists b. split; [exact Nb|]. assert (LT : forall j x, (j < length a)%nat -> nth_error (a ++ b :: c) j = Some x -> x < b).
    { intros j x Lj Hj. rewrite nth_error_app1 in Hj by auto. apply (proj1 (Forall_forall _ _) F1 x). eapply nth_error_In; eauto. }
    split; [|exact LT]. intros j x Hj. destruct (Nat.lt_ge_cases j (length a)) as [Lj|Lj]; [apply Rlt_le; eapply LT; eauto|]. rewrite nth_error_app2 in Hj by auto. destruct (j - length a)%nat as [|k]; cbn in Hj; [injection Hj as <-; lra|]. apply (proj1 (Forall_forall _ _) F2 x). eapply nth_error_In; eauto.
Qed.
Lemma noisy_app s a za b zb : length za = length a -> noisy s (a ++ b) (za ++ zb) = noisy s a za ++ noisy s b zb.
Proof.
  intro L. unfold noisy. revert za L. induction a as [|v a IH]; intros [|z za] L; try discriminate; cbn; [reflexivity|]. f_equal. apply IH. cbn in L. congruence.
Qed.
(** the lead of [m] over [v], in units of the noise *)
Definition lead (s m v : R) : R := (m - v) / s.
Lemma lead_lt s m v x z : 0 < s -> (v + s * z < m + s * x <-> z < x + lead s m v) /\ (v + s * z <= m + s * x <-> z <= x + lead s m v).
Proof.
  intro Hs. assert (E : s * (x + lead s m v) = m + s * x - v) by (unfold lead; field; lra). split; split; intro H.
  - apply Rmult_lt_reg_l with s; lra.
  - apply (Rmult_lt_compat_l s) in H; lra.
  - apply Rmult_le_reg_l with s; lra.
  - apply (Rmult_le_compat_l s) in H; lra.
Qed.
Lemma noisy_below s m x : 0 < s -> forall a za, length za = length a ->
  (Forall (fun y => y < m + s * x) (noisy s a za) <-> Forall2 (fun c z => z < x + c) (map (lead s m) a) za) /\
  (Forall (fun y => y <= m + s * x) (noisy s a za) <-> Forall2 (fun c z => z <= x + c) (map (lead s m) a) za).
Proof.
  intro Hs. induction a as [|v a IH]; intros [|z za] L; try discriminate; [split; split; intros; constructor|]. destruct (IH za ltac:(cbn in L; congruence)) as [I1 I2]. destruct (lead_lt s m v x z Hs) as [K1 K2]. change (noisy s (v :: a) (z :: za)) with ((v + s * z) :: noisy s a za). cbn [map].
  split; split; intro H; inversion H; subst; constructor; try (now apply K1); try (now apply K2); try (now apply I1); now apply I2.
Qed.
Lemma split_list {X} (n : nat) : forall (l : list X) k, length l = (n + S k)%nat -> exists a x b, l = a ++ x :: b /\ length a = n /\ length b = k.
Proof.
  induction n as [|n IH]; intros [|x l] k L; try discriminate; cbn in L.
  - exists [], x, l. repeat split. congruence.
  - destruct (IH l k ltac:(congruence)) as [a [y [b [-> [La Lb]]]]]. exists (x :: a), y, b. cbn. repeat split; auto.
Qed.
Lemma best_split row : row <> [] -> exists pre m post, row = pre ++ m :: post /\ Forall (fun x => x < m) pre /\ Forall (fun x => x <= m) post.
Proof.
  intro N. destruct (argmax_first _ N) as [i [_ F]]. assert (Li : exists k, length row = (i + S k)%nat).
  { destruct F as [m [E _]]. assert (i < length row)%nat by (apply nth_error_Some; congruence). exists (length row - S i)%nat. lia. }
  destruct Li as [k Li]. destruct (split_list i row k Li) as [a [m [b [-> [La Lb]]]]]. exists a, m, b. split; [reflexivity|]. apply first_max_split. now rewrite La.
Qed.
Lemma best_chance_is s pre m post l : 0 < s -> Forall (fun x => x < m) pre -> Forall (fun x => x <= m) post ->
  is_RInt_gen (fun z => npdf z * below (map (lead s m) (pre ++ post)) z) (Rbar_locally m_infty) (Rbar_locally p_infty) l ->
  normal_chance (length (pre ++ m :: post)) (picks_best s (pre ++ m :: post)) l.
Proof.
  intros Hs F1 F2 H. exists (sel0 (map (lead s m) pre) (map (lead s m) post)). split.
  - intros z Lz. rewrite app_length in Lz. cbn [length] in Lz. destruct (split_list _ z _ Lz) as [za [x [zb [-> [La Lb]]]]].
    assert (PB : picks_best s (pre ++ m :: post) (za ++ x :: zb) <-> Forall2 (fun c z => z < x + c) (map (lead s m) pre) za /\ Forall2 (fun c z => z <= x + c) (map (lead s m) post) zb).
    { destruct (noisy_below s m x Hs pre za La) as [K1 _]. destruct (noisy_below s m x Hs post zb Lb) as [_ K2]. assert (FM : first_max (pre ++ m :: post) (length pre)) by (apply first_max_split; auto).
      assert (E : noisy s (pre ++ m :: post) (za ++ x :: zb) = noisy s pre za ++ (m + s * x) :: noisy s post zb) by (rewrite noisy_app by auto; reflexivity).
      assert (Ln : length (noisy s pre za) = length pre) by now apply noisy_length.
      split.
      - intros [i [I1 I2]]. rewrite (first_max_unique _ _ _ I1 FM), E, <- Ln in I2. apply first_max_split in I2. rewrite <- K1, <- K2. exact I2.
      - intro Q. exists (length pre). split; [exact FM|]. rewrite E, <- Ln. apply first_max_split. rewrite K1, K2. exact Q. }
    destruct (sel0_bit (map (lead s m) pre) (map (lead s m) post) za x zb) as [B1 B0]; [now rewrite map_length|now rewrite map_length|]. split; intro Q; [apply PB in Q; now apply B1|]. apply B0. intro X. apply Q, PB, X.
  - rewrite map_app in H. assert (K := sel0_mean _ _ l H). rewrite !map_length in K. rewrite app_length. exact K.
Qed.
Lemma best_chance_ex s row : 0 < s -> row <> [] -> exists l, normal_chance (length row) (picks_best s row) l.
Proof.
  intros Hs N. destruct (best_split row N) as [pre [m [post [-> [F1 F2]]]]]. destruct (tail_exists _ (below_unit (map (lead s m) (pre ++ post)))) as [A [l T]]. exists l. apply best_chance_is; auto. apply (tail_total _ A); [apply below_unit|exact T].
Qed.
(** the chance, with its integral *)
Lemma best_chance_tail s row l : 0 < s -> row <> [] -> normal_chance (length row) (picks_best s row) l ->
  forall pre m post, row = pre ++ m :: post -> Forall (fun x => x < m) pre -> Forall (fun x => x <= m) post -> exists A, tail_of (below (map (lead s m) (pre ++ post))) A l.
Proof.
  intros Hs N H pre m post E F1 F2. destruct (tail_exists _ (below_unit (map (lead s m) (pre ++ post)))) as [A [l' T]]. exists A. replace l with l'; [exact T|]. apply (chance_unique (length row) (picks_best s row)); [|exact H]. rewrite E. apply best_chance_is; auto. apply (tail_total _ A); [apply below_unit|exact T].
Qed.
