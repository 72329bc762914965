(** The mode: symmetries, further labels, predictions. *)
From Coq Require Import Permutation.
From Coquelicot Require Import Coquelicot.
From Coq Require Import Reals Lra Lia List.
From Verif Require Import M_Fake M_RBase M_Normal M_PrefProbit M_OrdProbit M_AbsProbit M_Acq M_GP M_Search M_Fit S_PrefProbit S_OrdProbit S_AbsProbit S_Kernel S_GP S_Fit S_Mode P_RBase P_Acq P_Normal P_PrefProbit P_Put P_OrdProbit P_AbsProbit P_Chol P_GP P_GP2 P_GP3 P_Fit P_Fit2 P_Fit3 P_Fit4 P_Fit5 P_Mode P_Mode2 P_Mode3 P_Mode4.
From Verif Require Import S_Psd P_Psd.
Local Open Scope R_scope.

(** ---- symmetries ---- *)
Lemma LLp_contrary s r F : LLp s (map contrary r) F = LLp s r (fun i => - F i).
Proof.
  unfold LLp. rewrite map_map. apply rsum_ext. intros p _. do 2 f_equal. unfold contrary, dk_of, u_of, v_of, Rdiv. cbn [fst snd]. rewrite opp_IZR. ring.
Qed.
Lemma LLp_exchanged s r F : LLp s (map exchanged r) F = LLp s r F.
Proof.
  unfold LLp. rewrite map_map. apply rsum_ext. intros p _. do 2 f_equal. unfold exchanged, dk_of, u_of, v_of, Rdiv. cbn [fst snd]. rewrite opp_IZR. ring.
Qed.
Lemma qform_opp n B F : qform n B (fun i => - F i) = qform n B F.
Proof. unfold qform. apply sumn_ext. intros i _. apply sumn_ext. intros; ring. Qed.
Lemma opp_opp (F : nat -> R) : (fun i => - - F i) = F.
Proof. apply FunctionalExtensionality.functional_extensionality. intro i. ring. Qed.
Lemma mode_contrary sp P n r B F : mode sp P (only (map contrary r)) n B F <-> mode sp P (only r) n B (fun i => - F i).
Proof.
  split; intros M G.
  - specialize (M (fun i => - G i)). rewrite !post_only, !LLp_contrary, opp_opp in M. rewrite !post_only. rewrite !qform_opp in M. now rewrite qform_opp.
  - specialize (M (fun i => - G i)). rewrite !post_only in M. rewrite !post_only, !LLp_contrary. now rewrite !qform_opp in M.
Qed.
Lemma mode_exchanged sp P n r B F : mode sp P (only (map exchanged r)) n B F <-> mode sp P (only r) n B F.
Proof. split; intros M G; specialize (M G); rewrite !post_only in *; now rewrite !LLp_exchanged in *. Qed.
Lemma LLp_perm s r r' F : Permutation r r' -> LLp s r F = LLp s r' F.
Proof. intro H. unfold LLp. apply rsum_perm. now apply Permutation_map. Qed.
Lemma mode_perm sp P n r r' B F : Permutation r r' -> mode sp P (only r) n B F -> mode sp P (only r') n B F.
Proof. intros H M G. specialize (M G). rewrite !post_only in *. now rewrite <- !(LLp_perm _ r r') by auto. Qed.
Lemma mode_balanced sp P n r K B F : good_probits sp P -> well_formed n r -> symmetric n K -> pd n K -> right_inverse n K B -> Permutation r (map contrary r) ->
  mode sp P (only r) n B F -> forall i, (i < n)%nat -> F i = 0.
Proof.
  intros GP WF SK PK IB H M i Hi. assert (M' : mode sp P (only r) n B (fun i => - F i)) by (apply mode_contrary; now apply (mode_perm sp P n r)).
  assert (E := mode_only sp P n (only r) K B GP (only_good P n r WF) (only_discrete P r) SK PK IB F _ M M' i Hi). cbn in E. lra.
Qed.
Lemma qform_inverse_scale n K B B' c F : c <> 0 -> symmetric n K -> pd n K -> right_inverse n K B -> right_inverse n (fun i j => c ^ 2 * K i j) B' -> qform n B' (fun i => c * F i) = qform n B F.
Proof.
  intros Hc SK PK IB IB'. assert (C2 : 0 < c ^ 2) by (assert (T := pow2_ge_0 c); assert (c ^ 2 <> 0) by (now apply pow_nonzero); lra).
  assert (E : forall i j, (i < n)%nat -> (j < n)%nat -> c ^ 2 * B' i j = B i j).
  { apply (inverse_unique n K); auto. intros i j Hi Hj. rewrite <- (IB' i j Hi Hj). apply sumn_ext. intros a _. ring. }
  unfold qform. apply sumn_ext. intros i Hi. apply sumn_ext. intros j Hj. rewrite <- (E i j Hi Hj). ring.
Qed.
Lemma LLp_units c s r F : c <> 0 -> s <> 0 -> LLp (c * s) r (fun i => c * F i) = LLp s r F.
Proof.
  intros Hc Hs. unfold LLp. apply rsum_ext. intros p _. do 2 f_equal. field. split; [apply Rgt_not_eq, sqrt2_pos|split; auto].
Qed.
Lemma mode_units sp P n r K B B' c F : good_probits sp P -> c <> 0 -> symmetric n K -> pd n K -> right_inverse n K B -> right_inverse n (fun i j => c ^ 2 * K i j) B' ->
  (mode sp (with_noise P (c * p_sigma (ps_p P))) (only r) n B' (fun i => c * F i) <-> mode sp P (only r) n B F).
Proof.
  intros GP Hc SK PK IB IB'. assert (E : forall G, log_post sp (with_noise P (c * p_sigma (ps_p P))) (only r) n B' (fun i => c * G i) = log_post sp P (only r) n B G).
  { intro G. rewrite !post_only. cbn [with_noise ps_p p_sigma]. rewrite LLp_units by (auto; apply GP). now rewrite (qform_inverse_scale n K B B' c G). }
  split; intros M G.
  - specialize (M (fun i => c * G i)). now rewrite !E in M.
  - rewrite E. replace G with (fun i => c * (G i / c)) by (apply FunctionalExtensionality.functional_extensionality; intro i; field; auto). rewrite (E (fun i => G i / c)). apply M.
Qed.

(** ---- one more label ---- *)
Lemma two_max (f g : (nat -> R) -> R) F F' : (forall G, f G <= f F) -> (forall G, f G + g G <= f F' + g F') -> g F <= g F'.
Proof. intros A C. specialize (A F'). specialize (C F). lra. Qed.
Lemma more_post sp P y n B p G : log_post sp P (more y p) n B G = log_post sp P y n B G + ln (ndtr (margin G p / (p_sigma (ps_p P) * sqrt 2))).
Proof. unfold log_post, LL, more, cons_to. cbn [y_rel y_ord y_abs part]. unfold LLp. cbn [map rsum]. unfold margin. destruct (y_rel y); cbn [part map rsum]; ring. Qed.
Lemma more_ord_post sp P y n B k G : log_post sp P (more_ord y k) n B G = log_post sp P y n B G + ln (label_prob (o_n (ps_o P)) (o_sigma (ps_o P)) (o_b (ps_o P)) (fst k) (G (snd k))).
Proof. unfold log_post, LL, more_ord, cons_to. cbn [y_rel y_ord y_abs part]. unfold LLo. cbn [map rsum]. destruct (y_ord y); cbn [part map rsum]; ring. Qed.
Lemma more_abs_post sp P y n B a G : log_post sp P (more_abs y a) n B G = log_post sp P y n B G + rating_ll sp (a_v (ps_a P)) (a_sigma (ps_a P)) (fst a) (G (snd a)).
Proof. unfold log_post, LL, more_abs, cons_to. cbn [y_rel y_ord y_abs part]. unfold LLa. cbn [map rsum]. destruct (y_abs y); cbn [part map rsum]; ring. Qed.
Lemma scale_lt s a b : 0 < s -> a < b -> a / (s * sqrt 2) < b / (s * sqrt 2).
Proof. intros S H. apply Rmult_lt_compat_r; auto. apply Rinv_0_lt_compat, Rmult_lt_0_compat; [auto|apply sqrt2_pos]. Qed.
Lemma mode_more sp P y n B p F F' : 0 < p_sigma (ps_p P) -> mode sp P y n B F -> mode sp P (more y p) n B F' -> margin F p <= margin F' p.
Proof.
  intros S M M'. assert (T := two_max (log_post sp P y n B) (fun G => ln (ndtr (margin G p / (p_sigma (ps_p P) * sqrt 2)))) F F' M). cbn beta in T.
  assert (T' : ln (ndtr (margin F p / (p_sigma (ps_p P) * sqrt 2))) <= ln (ndtr (margin F' p / (p_sigma (ps_p P) * sqrt 2)))) by (apply T; intro G; rewrite <- !more_post; apply M').
  destruct (Rle_or_lt (margin F p) (margin F' p)) as [|L]; auto. exfalso. assert (I := ndtr_increasing _ _ (scale_lt _ _ _ S L)). assert (J := ln_increasing _ _ (proj1 (ndtr_range _)) I). lra.
Qed.
Lemma mode_more_ord sp P y n B k F F' : separated (ps_o P) -> (1 <= fst k <= o_n (ps_o P))%nat -> mode sp P y n B F -> mode sp P (more_ord y k) n B F' ->
  label_prob (o_n (ps_o P)) (o_sigma (ps_o P)) (o_b (ps_o P)) (fst k) (F (snd k)) <= label_prob (o_n (ps_o P)) (o_sigma (ps_o P)) (o_b (ps_o P)) (fst k) (F' (snd k)).
Proof.
  intros S V M M'. assert (T := two_max (log_post sp P y n B) (fun G => ln (label_prob (o_n (ps_o P)) (o_sigma (ps_o P)) (o_b (ps_o P)) (fst k) (G (snd k)))) F F' M). cbn beta in T.
  specialize (T ltac:(intro G; rewrite <- !more_ord_post; apply M')). assert (R1 := label_range (ps_o P) (fst k) (F (snd k)) S V). assert (R2 := label_range (ps_o P) (fst k) (F' (snd k)) S V).
  apply Rnot_lt_le. intro L. assert (J := ln_increasing _ _ (proj1 R2) L). lra.
Qed.
Lemma top_label o f : (2 <= o_n o)%nat -> label_prob (o_n o) (o_sigma o) (o_b o) (o_n o) f = 1 - ndtr ((nth (o_n o - 2) (o_b o) 0 - f) / o_sigma o).
Proof.
  intro H. unfold label_prob, cumulative. destruct (Nat.eqb_spec (o_n o) 0); [lia|]. rewrite Nat.ltb_irrefl. destruct (Nat.eqb_spec (o_n o - 1) 0); [lia|]. destruct (Nat.ltb_spec (o_n o - 1) (o_n o)); [|lia]. now replace (o_n o - 1 - 1)%nat with (o_n o - 2)%nat by lia.
Qed.
Lemma bottom_label o f : (2 <= o_n o)%nat -> label_prob (o_n o) (o_sigma o) (o_b o) 1 f = ndtr ((nth 0 (o_b o) 0 - f) / o_sigma o).
Proof. intro H. unfold label_prob, cumulative. destruct (Nat.ltb_spec 1 (o_n o)); [|lia]. cbn. ring. Qed.
Lemma mode_top sp P y n B i F F' : separated (ps_o P) -> (2 <= o_n (ps_o P))%nat -> mode sp P y n B F -> mode sp P (more_ord y (o_n (ps_o P), i)) n B F' -> F i <= F' i.
Proof.
  intros S H M M'. assert (T := mode_more_ord sp P y n B (o_n (ps_o P), i) F F' S ltac:(cbn; lia) M M'). cbn [fst snd] in T. rewrite !top_label in T by auto. apply Rnot_lt_le. intro L.
  assert ((nth (o_n (ps_o P) - 2) (o_b (ps_o P)) 0 - F i) / o_sigma (ps_o P) < (nth (o_n (ps_o P) - 2) (o_b (ps_o P)) 0 - F' i) / o_sigma (ps_o P)) as Q.
  { apply Rmult_lt_compat_r; [apply Rinv_0_lt_compat, S|lra]. }
  assert (J := ndtr_increasing _ _ Q). lra.
Qed.
Lemma mode_bottom sp P y n B i F F' : separated (ps_o P) -> (2 <= o_n (ps_o P))%nat -> mode sp P y n B F -> mode sp P (more_ord y (1%nat, i)) n B F' -> F' i <= F i.
Proof.
  intros S H M M'. assert (T := mode_more_ord sp P y n B (1%nat, i) F F' S ltac:(cbn; lia) M M'). cbn [fst snd] in T. rewrite !bottom_label in T by auto. apply Rnot_lt_le. intro L.
  assert ((nth 0 (o_b (ps_o P)) 0 - F' i) / o_sigma (ps_o P) < (nth 0 (o_b (ps_o P)) 0 - F i) / o_sigma (ps_o P)) as Q.
  { apply Rmult_lt_compat_r; [apply Rinv_0_lt_compat, S|lra]. }
  assert (J := ndtr_increasing _ _ Q). lra.
Qed.
Lemma mode_more_abs sp P y n B a F F' : mode sp P y n B F -> mode sp P (more_abs y a) n B F' ->
  rating_ll sp (a_v (ps_a P)) (a_sigma (ps_a P)) (fst a) (F (snd a)) <= rating_ll sp (a_v (ps_a P)) (a_sigma (ps_a P)) (fst a) (F' (snd a)).
Proof.
  intros M M'. apply (two_max (log_post sp P y n B) (fun G => rating_ll sp (a_v (ps_a P)) (a_sigma (ps_a P)) (fst a) (G (snd a))) F F' M). intro G. rewrite <- !more_abs_post. apply M'.
Qed.
(** strictly *)
Lemma LL_dir sp P n y F e : good_probits sp P -> good_labels P n y -> discrete P y -> exists l, has_direction (LL sp P y) F e l.
Proof.
  intros GP [GR [GO _]] [NA SO].
  assert (A1 : exists l, has_direction (fun G => part (y_rel y) (fun r => LLp (p_sigma (ps_p P)) r G)) F e l).
  { destruct (y_rel y) as [r|]; cbn [part]; eexists; [apply LLp_dir, GP|apply dir_const]. }
  assert (A2 : exists l, has_direction (fun G => part (y_ord y) (fun o => LLo (ps_o P) o G)) F e l).
  { destruct (y_ord y) as [o|]; cbn [part]; eexists; [apply LLo_dir; [apply SO; discriminate|apply (GO o eq_refl)]|apply dir_const]. }
  destruct A1 as [l1 A1]. destruct A2 as [l2 A2]. exists (l1 + l2 + 0). unfold LL. rewrite NA. cbn [part]. apply (dir_plus _ (fun _ => 0)); [now apply dir_plus|apply dir_const].
Qed.
Lemma mode_more_strict sp P y n K B p F F' : good_probits sp P -> 0 < p_sigma (ps_p P) -> good_labels P n y -> discrete P y -> well_formed n (p :: nil) -> proper p ->
  symmetric n K -> pd n K -> right_inverse n K B -> mode sp P y n B F -> mode sp P (more y p) n B F' -> margin F p < margin F' p.
Proof.
  intros GP S GL DY WP PP SK PK IB M M'. destruct (mode_more sp P y n B p F F' S M M') as [|E]; auto. exfalso. destruct (WP p (or_introl eq_refl)) as [Hu [Hv Hd]].
  assert (GL' : good_labels P n (more y p)).
  { destruct GL as [GR [GO GA]]. split; [|split; auto]. intros r H. unfold more, cons_to in H. cbn in H. injection H as <-. intros q [<- |Hq]; [split; [|split]; auto|]. destruct (y_rel y) as [r|] eqn:Er; [now apply (GR r eq_refl)|contradiction]. }
  assert (DY' : discrete P (more y p)) by (destruct DY as [A C]; split; auto).
  assert (T := mode_strong sp P n y K B GP GL DY SK PK IB F F' M). assert (T' := M' F). rewrite !more_post, E in T'.
  assert (Q : forall i, (i < n)%nat -> F i = F' i). { intros i Hi. destruct (zero_or_not n (fun i => F' i - F i)) as [Z|Z]; [|specialize (Z i Hi); lra]. assert (Z' := PB n K B SK PK IB _ Z). lra. }
  assert (M2 : mode sp P (more y p) n B F) by (apply (mode_ext sp P n (more y p) B GL' DY' F' F); [intros; symmetry; auto|exact M']).
  pose (e := fun a => if Nat.eqb a (v_of p) then 1 else 0). destruct (LL_dir sp P n y F e GP GL DY) as [l D].
  assert (D1 := dir_minus _ _ _ _ _ _ D (qform_direction n B F e (SB n K B SK IB))).
  assert (D2 := LLp_dir (p_sigma (ps_p P)) (p :: nil) F e (proj1 GP)). assert (D3 := dir_plus _ _ _ _ _ _ D1 D2).
  assert (Z1 := fermat sp P y n B F e _ M D1). assert (D4 : has_direction (log_post sp P (more y p) n B) F e (l - bform n B e F + hLLp (p_sigma (ps_p P)) (p :: nil) F e)).
  { eapply dir_ext; [|exact D3]. intro G. cbn beta. rewrite more_post. unfold log_post, LLp. cbn [map rsum]. unfold margin. ring. }
  assert (Z2 := fermat sp P (more y p) n B F e _ M2 D4). rewrite Z1 in Z2. rewrite hLLp_pull in Z2 by apply GP. cbn [map rsum] in Z2. assert (W := pull_pos (p_sigma (ps_p P)) F p S).
  assert (Me : margin e p = dk_of p). { unfold margin, e. rewrite Nat.eqb_refl. destruct (Nat.eqb_spec (u_of p) (v_of p)); [contradiction|]. ring. }
  rewrite Me in Z2. destruct Hd as [Hd|Hd]; rewrite Hd in Z2; lra.
Qed.

(** ---- predictions ---- *)
Lemma nth_map_pt (f : point -> R) X i : (i < length X)%nat -> nth i (map f X) 0 = f (pt X i).
Proof. intro H. rewrite (nth_indep _ 0 (f nil)) by (now rewrite map_length). apply map_nth. Qed.
Lemma mode_predict sp P inv k d dm r B X : good_probits sp P -> well_formed (length (pX d)) r -> separate k X (pX d) -> dim dm X -> dim dm (pX d) -> X <> nil -> pX d <> nil ->
  kcov k (pX d) (pX d) = Ok (pK d) -> pd (length (pX d)) (mat_at (pK d)) -> right_inverse (length (pX d)) (mat_at (pK d)) B ->
  mode sp P (only r) (length (pX d)) B (entries (pF d)) ->
  exists mu var, pgp_predict inv k (Some d) X = Ok (mu, var) /\ length mu = length X /\ forall i, (i < length X)%nat ->
    nth i mu 0 = rsum (map (fun p => pull (p_sigma (ps_p P)) (entries (pF d)) p * margin (fun a => kcall k (pt X i) (pt (pX d) a)) p) r).
Proof.
  intros GP WF HQ DX DY HX HY EK PK IB M. assert (HZ := separate_no_zeroed _ _ _ HQ). set (n := length (pX d)) in *. assert (HK := stored_K k (pX d) (pK d) HZ HY EK). fold n in HK.
  assert (SK : symmetric n (mat_at (pK d))). { intros i j Hi Hj. rewrite !HK by auto. now apply (train_cov_sym k (pX d) nil n). }
  destruct (chol_complete n (mat_at (pK d)) SK PK) as [L EL]. rewrite (pgp_chunk inv k d dm X HQ DX DY HX). fold n. rewrite EL. eexists _, _. split; [reflexivity|]. split; [apply map_length|]. intros i Hi.
  rewrite nth_map_pt by auto. unfold pgp_mu. fold n. set (kx := fun a => kcall k (pt X i) (pt (pX d) a)).
  assert (SB' := SB n _ B SK IB). rewrite <- (hLLp_pull _ r _ kx (proj1 GP)). rewrite (mode_slope sp P r n B _ kx (proj1 GP) SB' M). unfold bform. apply sumn_ext. intros j Hj.
  change (fun j => nth j (pF d) 0) with (entries (pF d)). rewrite (inverse_solves n _ L (entries (pF d)) SK EL j Hj). rewrite <- sumn_scale. apply sumn_ext. intros a Ha.
  rewrite (inverse_unique n (mat_at (pK d)) (k_inv n L) B SK PK (k_inv_inverse n _ L SK EL) IB j a Hj Ha). unfold kx. ring.
Qed.
Lemma mode_predict_one sp P inv k d dm p m B X : good_probits sp P -> 0 < p_sigma (ps_p P) -> well_formed (length (pX d)) (p :: nil) -> dk_of p = 1 -> separate k X (pX d) -> dim dm X -> dim dm (pX d) -> X <> nil -> pX d <> nil ->
  kcov k (pX d) (pX d) = Ok (pK d) -> pd (length (pX d)) (mat_at (pK d)) -> right_inverse (length (pX d)) (mat_at (pK d)) B ->
  mode sp P (only (repeat p (S m))) (length (pX d)) B (entries (pF d)) ->
  exists mu var c, pgp_predict inv k (Some d) X = Ok (mu, var) /\ 0 < c /\ forall i, (i < length X)%nat ->
    nth i mu 0 = c * (kcall k (pt X i) (pt (pX d) (v_of p)) - kcall k (pt X i) (pt (pX d) (u_of p))).
Proof.
  intros GP S WF Dk HQ DX DY HX HY EK PK IB M. assert (WF' : well_formed (length (pX d)) (repeat p (Datatypes.S m))) by (intros q Hq; apply repeat_spec in Hq; subst; apply WF; now left).
  destruct (mode_predict sp P inv k d dm _ B X GP WF' HQ DX DY HX HY EK PK IB M) as [mu [var [E [_ H]]]]. exists mu, var, (INR (Datatypes.S m) * pull (p_sigma (ps_p P)) (entries (pF d)) p). split; [exact E|].
  split; [apply Rmult_lt_0_compat; [apply lt_0_INR; lia|now apply pull_pos]|]. intros i Hi. rewrite (H i Hi). unfold margin at 1. generalize (pull (p_sigma (ps_p P)) (entries (pF d))). intro w. clear - Dk.
  assert (G : forall m, rsum (map (fun q => w q * (dk_of q * (kcall k (pt X i) (pt (pX d) (v_of q)) - kcall k (pt X i) (pt (pX d) (u_of q))))) (repeat p m)) = INR m * w p * (kcall k (pt X i) (pt (pX d) (v_of p)) - kcall k (pt X i) (pt (pX d) (u_of p)))).
  { induction m0 as [|m0 IH]; [cbn; ring|]. cbn [repeat map rsum]. rewrite IH, S_INR, Dk. ring. }
  apply (G (Datatypes.S m)).
Qed.
